(** Proofs about the calculator of preprocessor expressions. *)
From Verif Require Import Prelude ComputerModel ComputerSpec.
From Coq Require Import Bool.
Local Open Scope Z_scope.

(** ** Arithmetic. *)
Definition r64 (z : Z) : Prop := - 2 ^ 63 <= z < 2 ^ 63.

Lemma fits_c64 z : fits z = c64 z.
Proof.
  unfold fits, c64, in64, LLONG_MIN, LLONG_MAX, two63. change (2 ^ 63) with 9223372036854775808.
  destruct (_ && _) eqn:A; destruct (_ && _) eqn:B in |- *; try reflexivity; exfalso; lia.
Qed.

Lemma c64_some z v : c64 z = Some v -> v = z /\ r64 z.
Proof. unfold c64, r64. destruct (_ && _) eqn:A; intros E; [injection E as <-|discriminate]. split; auto. lia. Qed.

Lemma in64_r z : in64 z = true <-> r64 z.
Proof. unfold in64, r64, LLONG_MIN, LLONG_MAX, two63. change (2 ^ 63) with 9223372036854775808. lia. Qed.

Lemma r64_shift z : r64 z <-> Z.shiftr z 63 = 0 \/ Z.shiftr z 63 = -1.
Proof.
  rewrite Z.shiftr_div_pow2 by lia. unfold r64. change (2 ^ 63) with 9223372036854775808. lia.
Qed.

Lemma r64_land a b : r64 a -> r64 b -> r64 (Z.land a b).
Proof. rewrite !r64_shift, Z.shiftr_land. intros [->| ->] [->| ->]; cbn; auto. Qed.
Lemma r64_lor a b : r64 a -> r64 b -> r64 (Z.lor a b).
Proof. rewrite !r64_shift, Z.shiftr_lor. intros [->| ->] [->| ->]; cbn; auto. Qed.
Lemma r64_lxor a b : r64 a -> r64 b -> r64 (Z.lxor a b).
Proof. rewrite !r64_shift, Z.shiftr_lxor. intros [->| ->] [->| ->]; cbn; auto. Qed.

Lemma truth_r b v : truth b = Some v -> r64 v.
Proof. unfold truth, r64. destruct b; intros E; injection E as <-; lia. Qed.

Lemma quot_r a b : r64 a -> b <> 0 -> ~ (a = - 2 ^ 63 /\ b = -1) -> r64 (Z.quot a b).
Proof.
  unfold r64. intros R N X.
  assert (Z.abs (Z.quot a b) <= Z.abs a /\ (Z.abs b > 1 -> a <> 0 -> Z.abs (Z.quot a b) < Z.abs a)).
  { rewrite <- Z.quot_abs by auto. split.
    - apply Z.quot_le_upper_bound; [lia|]. nia.
    - intros. apply Z.quot_lt; lia. }
  assert (b = 1 \/ b = -1 \/ Z.abs b > 1) as [->|[->|?]] by lia.
  - rewrite Z.quot_1_r. auto.
  - change (-1) with (- (1)). rewrite Z.quot_opp_r, Z.quot_1_r by lia. lia.
  - destruct (Z.eq_dec a 0) as [->|]; [rewrite Z.quot_0_l by auto; lia|]. lia.
Qed.

Lemma rem_r a b : r64 a -> r64 b -> b <> 0 -> r64 (Z.rem a b).
Proof. unfold r64. intros R1 R2 N. pose proof (Z.rem_bound_abs a b N). lia. Qed.

Lemma apply2_r b x y v : r64 x -> r64 y -> apply2 b x y = Some v -> r64 v.
Proof.
  intros X Y. destruct b; cbn [apply2]; intros E;
    try (now apply c64_some in E as [-> ?]); try (now apply truth_r in E);
    repeat match type of E with context[if ?c then _ else _] => destruct c eqn:?; try discriminate end;
    try (now apply c64_some in E as [-> ?]); injection E as <-; auto using r64_land, r64_lor, r64_lxor.
  - apply rem_r; auto. lia.
  - unfold r64 in *. assert (0 < 2 ^ y) by (apply Z.pow_pos_nonneg; lia). split.
    + apply Z.div_le_lower_bound; nia.
    + apply Z.div_lt_upper_bound; nia.
Qed.
Lemma apply1_r u x v : r64 x -> apply1 u x = Some v -> r64 v.
Proof.
  intros X. destruct u; cbn [apply1]; intros E; try (now apply c64_some in E as [-> ?]); try (now apply truth_r in E);
    injection E as <-; unfold r64 in *; lia.
Qed.

Lemma value_r e v : value e = Some v -> r64 v.
Proof.
  revert v. induction e as [n|e IH|u e IH|b e1 IH1 e2 IH2]; cbn [value]; intros v E.
  - now apply c64_some in E as [-> ?].
  - auto.
  - destruct (value e) as [x|]; [|discriminate]. eapply apply1_r; eauto.
  - destruct (value e1) as [x|]; [|discriminate].
    destruct b; repeat match type of E with context[if ?c then _ else _] => destruct c eqn:? end;
      try (injection E as <-; unfold r64; lia);
      (destruct (value e2) as [y|]; [|discriminate]; eapply (apply2_r _ x y); eauto).
Qed.

Lemma compute_ok b x y v : r64 x -> apply2 b x y = Some v -> compute (bincode b) x y = Some (Some v).
Proof.
  intros X E. destruct b; cbn [apply2 bincode] in *; unfold compute; cbn -[fits Z.pow Z.shiftl Z.shiftr Z.quot Z.rem Z.land Z.lor Z.lxor];
    rewrite ?fits_c64; try (rewrite E; reflexivity); unfold truth in E; unfold b2z; try (injection E as <-; reflexivity).
  - destruct (y =? 0) eqn:?; cbn [orb] in E; [discriminate|]. destruct (_ && _) eqn:? in E; [discriminate|].
    assert (in64 (Z.quot x y) = true) as -> by (apply in64_r, quot_r; auto; lia). rewrite E. reflexivity.
  - destruct (_ || _) eqn:? in E; [discriminate|]. assert ((0 <=? x) && (0 <=? y) && (y <? 64) = true) as -> by lia.
    rewrite Z.shiftl_mul_pow2 by lia. rewrite E. reflexivity.
  - destruct (_ || _) eqn:? in E; [discriminate|]. assert ((0 <=? y) && (y <? 64) = true) as -> by lia.
    rewrite Z.shiftr_div_pow2 by lia. rewrite E. reflexivity.
  - injection E as <-. rewrite Z.gtb_ltb. reflexivity.
  - injection E as <-. rewrite Z.geb_leb. reflexivity.
Qed.

Lemma value_bin b e1 e2 v x y : value (EBin b e1 e2) = Some v -> value e1 = Some x -> value e2 = Some y -> apply2 b x y = Some v.
Proof.
  cbn [value]. intros E E1 E2. rewrite E1, E2 in E. destruct b; auto; cbn [apply2]; unfold truth.
  - destruct (x =? 0) eqn:A; [|cbn [apply2] in E; unfold truth in E; rewrite ?A in E; auto]. cbn. auto.
  - destruct (x =? 0) eqn:A; cbn in *; [|auto]. unfold truth in E. rewrite A in E. cbn in E. auto.
Qed.

(** ** The grammar. *)
Lemma phrase_range k ts e : phrase k ts e -> 1 <= k <= 11.
Proof. induction 1; lia. Qed.

Lemma phrase_le k j ts e : 1 <= j <= k -> phrase k ts e -> phrase j ts e.
Proof.
  intros J. remember (Z.to_nat (k - j)) as n eqn:N. revert k j J N. induction n as [|n IH]; intros k j J N P.
  - assert (j = k) as -> by lia. auto.
  - apply ph_weaker; [lia|]. apply (IH k); auto; lia.
Qed.

Lemma prec_range b : 1 <= prec b <= 10.
Proof. destruct b; cbn; lia. Qed.

Lemma compare_bin a b : compare_priority (bincode a) (bincode b) = match prec a ?= prec b with Datatypes.Gt => 1 | Datatypes.Eq => 0 | Datatypes.Lt => -1 end.
Proof. destruct a, b; reflexivity. Qed.

(** ** Stacks of operators with their places. *)
Definition flat (fs : list (Z * Z)) : list Z := flat_map (fun f => [fst f; snd f]) fs.

Lemma flat_app a b : flat (a ++ b) = flat a ++ flat b.
Proof. unfold flat. apply flat_map_app. Qed.

Fixpoint pushes (c : computer) (l : list (Z * piece)) : option computer :=
  match l with
  | [] => Some c
  | (pos, p) :: l => do ' (r, c) <- push c pos p; if r =? 0 then pushes c l else None
  end.

Lemma pushes_app c l1 l2 : pushes c (l1 ++ l2) = do c' <- pushes c l1; pushes c' l2.
Proof.
  revert c. induction l1 as [|[p x] l1 IH]; intros c; cbn; auto.
  destruct (push c p x) as [[r c']|]; cbn; auto. destruct (r =? 0); cbn; auto.
Qed.
Lemma feed_pushes c l c' : pushes c l = Some c' -> feed c l = do ' (v, c) <- pop_result c'; Some (v, c_err c).
Proof.
  revert c. induction l as [|[p x] l IH]; intros c; cbn.
  - intros E. injection E as <-. reflexivity.
  - destruct (push c p x) as [[r c1]|]; cbn; [|discriminate]. destruct (r =? 0); cbn; [|discriminate]. apply IH.
Qed.

Lemma hands_cons l t ts : hands l (t :: ts) -> exists p l', l = (p, as_piece t) :: l' /\ hands l' ts.
Proof. unfold hands. destruct l as [|[p x] l]; cbn; [discriminate|]. intros E. injection E as -> E. eauto. Qed.
Lemma hands_app l a b : hands l (a ++ b) -> exists l1 l2, l = l1 ++ l2 /\ hands l1 a /\ hands l2 b.
Proof.
  revert l. induction a as [|t a IH]; intros l H.
  - exists [], l. repeat split; auto.
  - apply hands_cons in H as (p & l' & -> & H). apply IH in H as (l1 & l2 & -> & H1 & H2).
    exists ((p, as_piece t) :: l1), l2. repeat split; auto. unfold hands in *. cbn. rewrite H1. reflexivity.
Qed.
Lemma hands_nil l : hands l [] -> l = [].
Proof. destruct l; [auto|discriminate]. Qed.

(** ** C40: values. *)

(** The top of the stack lets an expression of strength [k] be read. *)
Definition top_ok (fs : list (Z * Z)) (k : Z) : Prop :=
  match fs with [] => True | (t, _) :: _ => t = TK_L_BOUND \/ exists b, t = bincode b /\ prec b < k end.

(** Operators not yet applied, their operands, and the value they will give. *)
Inductive pending (k : Z) : list (Z * Z) -> list Z -> Z -> Prop :=
| pend_nil v : pending k [] [v] v
| pend_cons b p fs x y z ns v : r64 x -> apply2 b x y = Some z -> k <= prec b -> top_ok fs (prec b) ->
    pending k fs (z :: ns) v -> pending k ((bincode b, p) :: fs) (y :: x :: ns) v.

Lemma pending_weak k j fs ns v : j <= k -> pending k fs ns v -> pending j fs ns v.
Proof. intros L. induction 1; econstructor; eauto. lia. Qed.

Lemma pending_bottom k b p fs ns v x w : r64 x -> k < prec b + 1 ->
  pending (prec b + 1) fs ns v -> apply2 b x v = Some w -> pending k (fs ++ [(bincode b, p)]) (ns ++ [x]) w.
Proof.
  intros X K. induction 1; intros A; cbn.
  - eapply pend_cons; eauto; cbn; auto; [lia|]. apply pend_nil.
  - eapply pend_cons; eauto; [lia|].
    destruct fs as [|[t q] fs]; cbn in *; auto. right. exists b. split; auto. lia.
Qed.

Lemma bincode_range b : 6 <= bincode b <= 23.
Proof. destruct b; cbv; split; discriminate. Qed.

Lemma select_bin ns y x b p fs er z : r64 x -> apply2 b x y = Some z ->
  select_three (mkComp (y :: x :: ns) (bincode b :: p :: flat fs) true er) = Some (mkComp (z :: ns) (flat fs) true er).
Proof. intros X A. unfold select_three. cbn. rewrite (compute_ok b x y z) by auto. reflexivity. Qed.

Lemma push_token_S fuel c pos tk : push_token_n (S fuel) c pos tk =
    if negb (c_was c) then Some (token_without_number c pos tk)
    else if (tk =? TK_COMPL) || (tk =? TK_NOT) || (tk =? TK_L_BOUND) then Some (-1, cfail c pos EXPR_MISSING_BINARY)
    else
      let previous := speek (c_op c) in
      if (previous =? ITEM_MAX) && (tk =? TK_R_BOUND) then Some (-1, cfail c pos EXPR_MISSING_L_BRACKET)
      else if (previous =? TK_L_BOUND) && (tk =? TK_R_BOUND) then
        let '(_, _, l) := spop2 (c_op c) in Some (0, set_op c l)
      else
        let priority := compare_priority previous tk in
        if priority >? 0 then do c <- select_three c; push_token_n fuel c pos tk
        else
          do c <- (if priority =? 0 then select_three c else Some c);
          Some (0, set_was (set_op c (spush (spush (c_op c) pos) tk)) false).
Proof. reflexivity. Qed.

Lemma push_binary k fs' ns' v : pending k fs' ns' v -> forall b fs ns er pos fuel,
  prec b = k -> top_ok fs k -> (length (flat fs') < fuel)%nat ->
  push_token_n fuel (mkComp (ns' ++ ns) (flat (fs' ++ fs)) true er) pos (bincode b)
  = Some (0, mkComp (v :: ns) (flat ((bincode b, pos) :: fs)) false er).
Proof.
  induction 1 as [v|a p fs' x y z ns' v X A K T P IH]; intros b fs ns er pos fuel B TO F;
    (destruct fuel as [|fuel]; [lia|]); rewrite push_token_S; cbn [c_was negb app c_op c_num].
  all: assert (bincode b =? TK_COMPL = false /\ bincode b =? TK_NOT = false /\ bincode b =? TK_L_BOUND = false /\ bincode b =? TK_R_BOUND = false)
      as (-> & -> & -> & ->) by (pose proof (bincode_range b); unfold TK_COMPL, TK_NOT, TK_L_BOUND, TK_R_BOUND; lia).
  all: cbn [orb]; rewrite !andb_false_r; cbv zeta.
  - assert (compare_priority (speek (flat fs)) (bincode b) = -1) as ->.
    { destruct fs as [|[t q] fs]; cbn [flat flat_map speek spop fst snd app] in *.
      - destruct b; reflexivity.
      - destruct TO as [->|(a & -> & L)]; [destruct b; reflexivity|]. rewrite compare_bin.
        destruct (Z.compare_spec (prec a) (prec b)); try lia. }
    cbn. reflexivity.
  - cbn [flat flat_map fst snd app speek spop]. fold (flat (fs' ++ fs)).
    rewrite compare_bin. destruct (Z.compare_spec (prec a) (prec b)); [| |].
    + assert (fs' = []) as ->.
      { destruct P as [|a' p' fs2]; auto. cbn in T. destruct T as [T|(a2 & T & L)].
        - pose proof (bincode_range a'). unfold TK_L_BOUND in *. lia.
        - assert (prec a' < prec a) by (destruct a', a2; try discriminate T; auto). lia. }
      inversion P; subst. cbn [Z.gtb Z.compare Z.eqb app]. rewrite (select_bin _ _ _ _ _ _ _ v X A). reflexivity.
    + lia.
    + cbn [Z.gtb Z.compare Z.eqb app]. rewrite (select_bin _ _ _ _ _ _ _ z X A).
      apply (IH b fs ns er pos fuel); auto. cbn in F. fold (flat fs') in F. lia.
Qed.

Lemma push_close k fs' ns' v : pending k fs' ns' v -> forall fs ns er pos fuel p,
  (length (flat fs') < fuel)%nat ->
  push_token_n fuel (mkComp (ns' ++ ns) (flat (fs' ++ (TK_L_BOUND, p) :: fs)) true er) pos TK_R_BOUND
  = Some (0, mkComp (v :: ns) (flat fs) true er).
Proof.
  induction 1 as [v|a p fs' x y z ns' v X A K T P IH]; intros fs ns er pos fuel q F;
    (destruct fuel as [|fuel]; [lia|]).
  - reflexivity.
  - rewrite push_token_S; cbn [c_was negb app c_op c_num flat flat_map fst snd speek spop].
    assert (bincode a =? ITEM_MAX = false /\ bincode a =? TK_L_BOUND = false) as (-> & ->)
      by (pose proof (bincode_range a); unfold ITEM_MAX, LLONG_MAX, two63, TK_L_BOUND; lia).
    cbn [orb andb]. change (TK_R_BOUND =? TK_COMPL) with false. change (TK_R_BOUND =? TK_NOT) with false. change (TK_R_BOUND =? TK_L_BOUND) with false.
    change (compare_priority (bincode a) TK_R_BOUND) with 1. cbn [orb Z.gtb Z.compare].
    fold (flat (fs' ++ (TK_L_BOUND, q) :: fs)).
    rewrite (select_bin _ _ _ _ _ _ _ z X A). apply (IH fs ns er pos fuel q). cbn in F. fold (flat fs') in F. lia.
Qed.

Lemma pop_pending k fs ns v : pending k fs ns v -> forall er fuel, (length (flat fs) < fuel)%nat ->
  pop_loop fuel (mkComp ns (flat fs) true er) = Some (v, mkComp [] [] true er).
Proof.
  induction 1 as [v|a p fs x y z ns v X A K T P IH]; intros er fuel F; (destruct fuel as [|fuel]; [lia|]).
  - reflexivity.
  - cbn [pop_loop c_op flat flat_map fst snd speek spop app]. fold (flat fs).
    assert (bincode a =? ITEM_MAX = false /\ bincode a =? TK_L_BOUND = false) as (-> & ->)
      by (pose proof (bincode_range a); unfold ITEM_MAX, LLONG_MAX, two63, TK_L_BOUND; lia).
    rewrite (select_bin _ _ _ _ _ _ _ z X A). apply IH. cbn in F. fold (flat fs) in F. lia.
Qed.

(** Chains of unary operators in front of a number. *)
Definition ucode (u : unop) : Z := match u with Compl => TK_COMPL | Not => TK_NOT | Minus => TK_U_NEGATION | Plus => TK_U_PLUS end.
Fixpoint uapply (us : list (unop * Z)) (v : Z) : option Z :=
  match us with [] => Some v | (u, _) :: us => do w <- apply1 u v; uapply us w end.
Definition uflat (us : list (unop * Z)) : list (Z * Z) := map (fun f => (ucode (fst f), snd f)) us.
Definition no_not (us : list (unop * Z)) : Prop := Forall (fun f => fst f <> Not) us.

Lemma apply_unary_ok us : forall fs k v w fuel, no_not us -> top_ok fs k -> uapply us v = Some w -> (length us < fuel)%nat ->
  apply_unary fuel (flat (uflat us ++ fs)) v = Some (flat fs, w).
Proof.
  induction us as [|[u p] us IH]; intros fs k v w fuel N T E F; (destruct fuel as [|fuel]; [cbn in F; lia|]); cbn [uflat map uapply app fst snd] in *.
  - injection E as <-. destruct fs as [|[t q] fs].
    + reflexivity.
    + cbn [top_ok] in T. cbn [flat flat_map fst snd app apply_unary speek spop spop2].
      assert (t =? TK_COMPL = false /\ t =? TK_NOT = false /\ t =? TK_U_NEGATION = false /\ t =? TK_U_PLUS = false) as (-> & -> & -> & ->).
      { destruct T as [->|(b & -> & _)]; [repeat split; reflexivity|]. pose proof (bincode_range b). unfold TK_COMPL, TK_NOT, TK_U_NEGATION, TK_U_PLUS. lia. }
      reflexivity.
  - inversion N as [|? ? N1 N2]; subst. cbn [fst] in N1. cbn [length] in F. unfold bind in E. destruct (apply1 u v) as [v1|] eqn:A; [|discriminate].
    change (flat ((ucode u, p) :: map (fun f => (ucode (fst f), snd f)) us ++ fs)) with (ucode u :: p :: flat (uflat us ++ fs)).
    cbn [apply_unary speek spop spop2 fst snd].
    destruct u; cbn [ucode apply1] in *; try congruence.
    + injection A as <-. cbn. replace (Z.lnot v) with (- v - 1) by (unfold Z.lnot; lia). eapply IH; eauto. lia.
    + change (TK_U_NEGATION =? TK_COMPL) with false. change (TK_U_NEGATION =? TK_NOT) with false. change (TK_U_NEGATION =? TK_U_NEGATION) with true. cbv iota. rewrite fits_c64, A. cbn. eapply IH; eauto. lia.
    + injection A as <-. cbn. eapply IH; eauto. lia.
Qed.

(** All parts have a value. *)
Definition defined (e : expr) : Prop := forall e', In e' (parts e) -> value e' <> None.

Lemma parts_self e : In e (parts e).
Proof. destruct e; cbn; auto. Qed.
Lemma defined_value e : defined e -> exists v, value e = Some v.
Proof. intros D. specialize (D e (parts_self e)). destruct (value e); [eauto|congruence]. Qed.
Lemma defined_un u e : defined (EUn u e) -> defined e.
Proof. intros D e' I. apply D. cbn. auto. Qed.
Lemma defined_par e : defined (EPar e) -> defined e.
Proof. intros D e' I. apply D. cbn. auto. Qed.
Lemma defined_bin b e1 e2 : defined (EBin b e1 e2) -> defined e1 /\ defined e2.
Proof. intros D. split; intros e' I; apply D; cbn; rewrite in_app_iff; auto. Qed.
Lemma fine_un u e : unary_fine (EUn u e) -> unary_fine e /\ u <> Not /\ forall e', e <> EPar e'.
Proof. intros D. split; [intros v e' I; apply D; cbn; auto|apply (D u e); cbn; auto]. Qed.
Lemma fine_par e : unary_fine (EPar e) -> unary_fine e.
Proof. intros D u e' I. apply D. cbn. auto. Qed.
Lemma fine_bin b e1 e2 : unary_fine (EBin b e1 e2) -> unary_fine e1 /\ unary_fine e2.
Proof. intros D. split; intros u e' I; apply D; cbn; rewrite in_app_iff; auto. Qed.

Lemma push_number us fs k ns er pos v w p : no_not us -> top_ok fs k -> uapply us v = Some w -> (p = PNumb v \/ p = PName /\ v = 0) ->
  push (mkComp ns (flat (uflat us ++ fs)) false er) pos p = Some (0, mkComp (w :: ns) (flat fs) true er).
Proof.
  intros N T U P.
  assert (const_number (mkComp ns (flat (uflat us ++ fs)) false er) pos v = Some (0, mkComp (w :: ns) (flat fs) true er)) as E.
  { unfold const_number. cbn [c_was c_op c_num c_err].
    rewrite (apply_unary_ok us fs k v w); auto. rewrite flat_app, app_length.
    assert (length (flat (uflat us)) >= length us)%nat; [|lia]. clear. induction us as [|[u p] us IH]; [cbn; lia|]. cbn [uflat map flat flat_map app length fst snd]. fold (uflat us) (flat (uflat us)). lia. }
  destruct P as [->|[-> ->]]; exact E.
Qed.

Lemma push_utok ns us fs er pos u : push (mkComp ns (flat (uflat us ++ fs)) false er) pos (as_piece (utok u))
  = Some (0, mkComp ns (flat (uflat ((u, pos) :: us) ++ fs)) false er).
Proof. destruct u; reflexivity. Qed.

(** Everything the strongest phrases may be. *)
Lemma phrase11 ts e : phrase 11 ts e ->
  (exists n, ts = [TNum n] /\ e = ENum n) \/ (ts = [TName] /\ e = ENum 0)
  \/ (exists ts' e', ts = TOpen :: ts' ++ [TClose] /\ e = EPar e' /\ phrase 1 ts' e')
  \/ (exists u ts' e', ts = utok u :: ts' /\ e = EUn u e' /\ phrase 11 ts' e').
Proof.
  intros P. inversion P; subst; eauto 10.
  - pose proof (prec_range b). lia.
  - apply phrase_range in H0. lia.
Qed.

Lemma run_chain e : forall ts, phrase 11 ts e -> unary_fine e -> defined e -> (forall e', e <> EPar e') ->
  forall l us fs k ns er v w, hands l ts -> no_not us -> top_ok fs k -> value e = Some v -> uapply us v = Some w ->
  pushes (mkComp ns (flat (uflat us ++ fs)) false er) l = Some (mkComp (w :: ns) (flat fs) true er).
Proof.
  induction e as [n|e IH|u e IH|b e1 IH1 e2 IH2]; intros ts P UF D NP l us fs k ns er v w HL NN T V U;
    apply phrase11 in P as [(n' & -> & E)|[[-> E]|[(ts' & e' & -> & E & P)|(u' & ts' & e' & -> & E & P)]]]; try discriminate E.
  - injection E as <-. apply hands_cons in HL as (p & l' & -> & HL). apply hands_nil in HL as ->. cbn [pushes as_piece].
    cbn [value] in V. apply c64_some in V as [-> _]. rewrite (push_number us fs k ns er p n w) by auto. reflexivity.
  - injection E as ->. apply hands_cons in HL as (p & l' & -> & HL). apply hands_nil in HL as ->. cbn [pushes as_piece].
    injection V as <-. rewrite (push_number us fs k ns er p 0 w) by auto. reflexivity.
  - congruence.
  - injection E as <- <-. apply hands_cons in HL as (p & l' & -> & HL). cbn [pushes]. rewrite push_utok. cbn [Z.eqb].
    apply fine_un in UF as (UF & NU & NPar). pose proof (defined_un _ _ D) as D'. destruct (defined_value _ D') as (x & VX).
    cbn [value] in V. rewrite VX in V. change (bind (Some (0, mkComp ns (flat (uflat ((u, p) :: us) ++ fs)) false er)) (fun '(r, c) => if r =? 0 then pushes c l' else None)) with (pushes (mkComp ns (flat (uflat ((u, p) :: us) ++ fs)) false er) l').
    apply (IH ts') with (k := k) (v := x); auto; [|cbn; rewrite V; auto]. apply Forall_cons; auto.
Qed.

Theorem run_phrase k ts e : phrase k ts e -> unary_fine e -> defined e -> forall l fs ns er,
  hands l ts -> top_ok fs k ->
  exists fs' ns' v, pushes (mkComp ns (flat fs) false er) l = Some (mkComp (ns' ++ ns) (flat (fs' ++ fs)) true er)
    /\ value e = Some v /\ pending k fs' ns' v.
Proof.
  induction 1 as [n| |ts e P IH|u ts e P IH|b lt rt e1 e2 P1 IH1 P2 IH2|k ts e K P IH]; intros UF D l fs ns er HL T.
  - destruct (defined_value _ D) as (v & V). exists [], [v], v. split; [|split; [auto|constructor]].
    apply (run_chain _ _ (ph_num n)) with (us := []) (k := 11) (v := v); auto; [discriminate|constructor].
  - exists [], [0], 0. split; [|split; [auto|constructor]].
    apply (run_chain _ _ ph_name) with (us := []) (k := 11) (v := 0); auto; [discriminate|constructor].
  - apply hands_cons in HL as (p & l1 & -> & HL). apply hands_app in HL as (l2 & l3 & -> & HL & H3).
    apply hands_cons in H3 as (q & l4 & -> & H4). apply hands_nil in H4 as ->.
    destruct (IH (fine_par _ UF) (defined_par _ D) l2 ((TK_L_BOUND, p) :: fs) ns er HL) as (fs' & ns' & v & E & V & PD); [left; auto|].
    exists [], [v], v. split; [|split; [auto|constructor]].
    cbn [pushes as_piece push]. unfold push_token. rewrite push_token_S. cbn [c_was negb].
    change (token_without_number (mkComp ns (flat fs) false er) p TK_L_BOUND) with (0, mkComp ns (flat ((TK_L_BOUND, p) :: fs)) false er).
    change (bind (Some (0, mkComp ns (flat ((TK_L_BOUND, p) :: fs)) false er)) (fun '(r, c) => if r =? 0 then pushes c (l2 ++ [(q, PTok TK_R_BOUND)]) else None)) with (pushes (mkComp ns (flat ((TK_L_BOUND, p) :: fs)) false er) (l2 ++ [(q, PTok TK_R_BOUND)])).
    rewrite pushes_app, E. cbn [bind pushes push]. unfold push_token. cbn [c_op].
    rewrite (push_close 1 fs' ns' v PD) by (rewrite flat_app, app_length; lia). reflexivity.
  - apply fine_un in UF as UF'. destruct UF' as (UF' & NU & NPar). destruct (defined_value _ D) as (v & V).
    exists [], [v], v. split; [|split; [auto|constructor]].
    apply (run_chain (EUn u e) (utok u :: ts)) with (us := []) (k := 11) (v := v); auto; [apply ph_unary; auto|discriminate|constructor].
  - apply hands_app in HL as (l1 & l2 & -> & H1 & H2). apply hands_cons in H2 as (p & l3 & -> & H3).
    apply fine_bin in UF as [UF1 UF2]. destruct (defined_value _ D) as (v & V). apply defined_bin in D as [D1 D2].
    destruct (IH1 UF1 D1 l1 fs ns er H1 T) as (fs1 & ns1 & v1 & E1 & V1 & PD1).
    destruct (IH2 UF2 D2 l3 ((bincode b, p) :: fs) (v1 :: ns) er H3) as (fs2 & ns2 & v2 & E2 & V2 & PD2); [right; exists b; split; auto; lia|].
    exists (fs2 ++ [(bincode b, p)]), (ns2 ++ [v1]), v. split; [|split; [auto|]].
    + rewrite pushes_app, E1. cbn [bind pushes push as_piece]. unfold push_token. cbn [c_op].
      rewrite (push_binary (prec b) fs1 ns1 v1 PD1) by (auto; rewrite ?flat_app, ?app_length; lia). cbn [bind Z.eqb].
      rewrite E2. rewrite <- !app_assoc. reflexivity.
    + apply (pending_bottom (prec b) b p fs2 ns2 v2 v1 v); auto; [eapply value_r; eauto|lia|]. eapply value_bin; eauto.
  - destruct (IH UF D l fs ns er HL) as (fs' & ns' & v & E & V & PD).
    { destruct fs as [|[t q] fs]; cbn in *; auto. destruct T as [->|(b & -> & L)]; [auto|]. right. exists b. split; auto. lia. }
    exists fs', ns', v. repeat split; auto. eapply pending_weak; [|eauto]. lia.
Qed.

Theorem evaluate_ok ts e l : phrase 1 ts e -> unary_fine e -> defined e -> hands l ts ->
  exists v, value e = Some v /\ evaluate l = Some (v, None).
Proof.
  intros P UF D HL. destruct (run_phrase 1 ts e P UF D l [] [] None HL I) as (fs & ns & v & E & V & PD).
  exists v. split; auto. rewrite !app_nil_r in E. unfold evaluate, computer_create. change (@nil Z) with (flat []) at 2. rewrite (feed_pushes _ _ _ E).
  unfold pop_result. cbn [c_num c_was c_op negb].
  assert (zlen ns =? 0 = false) as -> by (assert (zlen ns <> 0) by (destruct PD; rewrite zlen_cons; [pose proof (zlen_nonneg (@nil Z))|pose proof (zlen_nonneg (x :: ns))]; lia); lia).
  rewrite (pop_pending 1 fs ns v PD) by lia. reflexivity.
Qed.

(** ** C41: only expressions are accepted. *)
Inductive frame := FPar | FUn (u : unop) | FBin (ts : list tok) (e : expr) (b : binop).
Definition fcode (f : frame) : Z := match f with FPar => TK_L_BOUND | FUn u => ucode u | FBin _ _ b => bincode b end.
Definition ftok (f : frame) : list tok := match f with FPar => [TOpen] | FUn u => [utok u] | FBin ts _ b => ts ++ [TBin b] end.
Fixpoint ftoks (fs : list (frame * Z)) : list tok := match fs with [] => [] | (f, _) :: fs => ftoks fs ++ ftok f end.
Definition fflat (fs : list (frame * Z)) : list Z := flat (map (fun f => (fcode (fst f), snd f)) fs).
(** The strength the next operand must have. *)
Definition expected (fs : list (frame * Z)) : Z :=
  match fs with (FUn _, _) :: _ => 11 | (FBin _ _ b, _) :: _ => prec b + 1 | _ => 1 end.
Fixpoint fwf (fs : list (frame * Z)) : Prop :=
  match fs with
  | [] => True
  | (f, _) :: fs => fwf fs /\ match f with FBin ts e b => expected fs <= prec b /\ phrase (prec b) ts e | _ => True end
  end.

Definition shape (c : computer) (ts : list tok) : Prop :=
  exists fs, fwf fs /\ c_op c = fflat fs
    /\ if c_was c then exists cur e, phrase 11 cur e /\ ts = ftoks fs ++ cur else ts = ftoks fs.

Lemma expected_range fs : 1 <= expected fs <= 11.
Proof. destruct fs as [|[[| |? ? b] p] fs]; cbn; try lia. pose proof (prec_range b). lia. Qed.

Lemma fcode_range f : 0 <= fcode f <= 23.
Proof. destruct f as [| [] |? ? []]; cbv; split; discriminate. Qed.

(** Applying the operator on top of the stack. *)
Lemma reduce f p fs k cur e : fwf ((f, p) :: fs) -> f <> FPar -> phrase k cur e -> expected ((f, p) :: fs) <= k ->
  exists k' e', phrase k' (ftok f ++ cur) e' /\ expected fs <= k' /\ k' = match f with FBin _ _ b => prec b | _ => 11 end.
Proof.
  intros [W1 W2] NP P X. pose proof (phrase_range _ _ _ P) as R. destruct f as [|u|ts0 e0 b]; [congruence| |].
  - exists 11, (EUn u e). cbn [expected] in X. assert (k = 11) as -> by lia. repeat split; [apply ph_unary; auto|apply expected_range].
  - destruct W2 as [W2 W3]. exists (prec b), (EBin b e0 e). repeat split; auto. cbn [ftok]. rewrite <- app_assoc. cbn [app].
    apply ph_binary; auto. cbn [expected] in X. pose proof (prec_range b). apply (phrase_le k); auto. lia.
Qed.

Lemma select_shape f p fs was er ns c' : select_three (mkComp ns (fflat ((f, p) :: fs)) was er) = Some c' -> c_op c' = fflat fs /\ c_was c' = was /\ c_err c' = er.
Proof.
  unfold select_three. cbn -[compute]. fold (fflat fs). destruct ns as [|y [|x ns]]; cbn -[compute];
  (destruct (compute _ _ _) as [r|]; [|discriminate]); cbn; intros E; injection E as <-; cbn; auto.
Qed.

Lemma compare_un u b : compare_priority (ucode u) (bincode b) = 1.
Proof. destruct u, b; reflexivity. Qed.

Lemma cfail_err c p m : c_err (cfail c p m) <> None.
Proof. unfold cfail. destruct (c_err c) eqn:E; cbn; congruence. Qed.

Lemma speek_fflat f p fs : speek (fflat ((f, p) :: fs)) = fcode f.
Proof. reflexivity. Qed.
Lemma spop2_fflat f p fs : spop2 (fflat ((f, p) :: fs)) = (fcode f, p, fflat fs).
Proof. reflexivity. Qed.
Lemma fcode_item f : fcode f =? ITEM_MAX = false.
Proof. pose proof (fcode_range f). unfold ITEM_MAX, LLONG_MAX, two63. lia. Qed.
Lemma fcode_par f : f <> FPar -> fcode f =? TK_L_BOUND = false.
Proof. destruct f as [| [] |? ? []]; intros; try reflexivity. congruence. Qed.

Lemma token_shape fuel : forall ns fs cur k e er pos t r c' ts0,
  fwf fs -> phrase k cur e -> expected fs <= k -> ts0 = ftoks fs ++ cur ->
  (match t with TBin b => prec b <= k | _ => True end) ->
  (match t with TNum _ | TName => False | _ => True end) ->
  push_token_n fuel (mkComp ns (fflat fs) true er) pos (match as_piece t with PTok tk => tk | _ => 0 end) = Some (r, c') ->
  c_err c' = None -> er = None /\ r = 0 /\ shape c' (ts0 ++ [t]).
Proof.
  induction fuel as [|fuel IH]; intros ns fs cur k e er pos t r c' ts0 W P X TS PR NT E NE; [discriminate|].
  rewrite push_token_S in E. cbn [c_was negb] in E.
  destruct t as [n| | | |b| |]; try contradiction; cbn [as_piece] in E;
    try (injection E as <- <-; exfalso; revert NE; apply cfail_err).
  - (* close *)
    change ((TK_R_BOUND =? TK_COMPL) || (TK_R_BOUND =? TK_NOT) || (TK_R_BOUND =? TK_L_BOUND)) with false in E. cbv iota in E. cbn [c_op] in E.
    destruct fs as [|[f p] fs].
    + change (speek (fflat [])) with ITEM_MAX in E. rewrite Z.eqb_refl in E. cbn in E. injection E as <- <-. exfalso; revert NE; apply cfail_err.
    + rewrite speek_fflat, fcode_item in E. cbn [andb] in E.
      destruct f as [|u|ts1 e1 b].
      * change (fcode FPar =? TK_L_BOUND) with true in E. change (TK_R_BOUND =? TK_R_BOUND) with true in E. cbn [andb] in E.
        rewrite spop2_fflat in E. injection E as <- <-. cbn in NE. split; [auto|]. split; [auto|].
        exists fs. destruct W as [W _]. split; [auto|]. split; [reflexivity|]. cbn [set_op c_was].
        exists (TOpen :: cur ++ [TClose]), (EPar e). split; [|subst ts0; cbn [ftoks ftok]; rewrite <- !app_assoc; reflexivity].
        apply ph_paren. apply (phrase_le k); auto. pose proof (phrase_range _ _ _ P). lia.
      * rewrite (fcode_par (FUn u)) in E by discriminate. cbn [andb] in E. change (compare_priority (fcode (FUn u)) TK_R_BOUND) with 1 in E. cbn [Z.gtb Z.compare] in E.
        unfold bind in E. destruct (select_three _) as [c1|] eqn:S in E; [|discriminate]. apply select_shape in S as (S1 & S2 & S3).
        destruct c1 as [ns1 op1 w1 er1]. cbn in S1, S2, S3. subst.
        destruct (reduce (FUn u) p fs k cur e W ltac:(discriminate) P X) as (k' & e' & P' & X' & K').
        eapply (IH ns1 fs _ k' e' er pos TClose r c' (ftoks ((FUn u, p) :: fs) ++ cur)); eauto; [apply W|cbn [ftoks]; now rewrite <- app_assoc].
      * rewrite (fcode_par (FBin ts1 e1 b)) in E by discriminate. cbn [andb] in E. change (compare_priority (fcode (FBin ts1 e1 b)) TK_R_BOUND) with 1 in E. cbn [Z.gtb Z.compare] in E.
        unfold bind in E. destruct (select_three _) as [c1|] eqn:S in E; [|discriminate]. apply select_shape in S as (S1 & S2 & S3).
        destruct c1 as [ns1 op1 w1 er1]. cbn in S1, S2, S3. subst.
        destruct (reduce (FBin ts1 e1 b) p fs k cur e W ltac:(discriminate) P X) as (k' & e' & P' & X' & K').
        eapply (IH ns1 fs _ k' e' er pos TClose r c' (ftoks ((FBin ts1 e1 b, p) :: fs) ++ cur)); eauto; [apply W|cbn [ftoks]; now rewrite <- app_assoc].
  - (* binary *)
    pose proof (bincode_range b) as BR.
    assert (bincode b =? TK_COMPL = false /\ bincode b =? TK_NOT = false /\ bincode b =? TK_L_BOUND = false /\ bincode b =? TK_R_BOUND = false)
      as (B1 & B2 & B3 & B4) by (unfold TK_COMPL, TK_NOT, TK_L_BOUND, TK_R_BOUND; lia).
    rewrite B1, B2, B3, B4 in E. cbn [orb] in E. rewrite !andb_false_r in E. cbn [c_op] in E. cbv zeta in E.
    assert (DONE: forall ns1 fs1 cur1 e1 k1 er1 ts1, fwf fs1 -> phrase k1 cur1 e1 -> expected fs1 <= prec b <= k1 -> ts1 = ftoks fs1 ++ cur1 -> 
       shape (set_was (set_op (mkComp ns1 (fflat fs1) true er1) (spush (spush (c_op (mkComp ns1 (fflat fs1) true er1)) pos) (bincode b))) false) (ts1 ++ [TBin b])).
    { intros ns1 fs1 cur1 e1 k1 er1 ts1 W1 P1 X1 T1. exists ((FBin cur1 e1 b, pos) :: fs1). split; [split; [auto|split; [lia|]]|].
      - apply (phrase_le k1); auto. pose proof (prec_range b). lia.
      - split; [reflexivity|]. cbn [c_was set_was set_op]. cbn [ftoks ftok]. subst ts1. now rewrite <- app_assoc. }
    destruct fs as [|[f p] fs].
    + assert (compare_priority (speek (fflat [])) (bincode b) = -1) as C by (destruct b; reflexivity). rewrite C in E. cbn [Z.gtb Z.eqb Z.compare bind] in E.
      injection E as <- <-. split; [auto|]. split; [auto|]. apply (DONE ns [] cur e k er ts0); auto. cbn [expected]. pose proof (prec_range b). lia.
    + rewrite speek_fflat in E. destruct f as [|u|ts1 e1 a].
      * assert (compare_priority (fcode FPar) (bincode b) = -1) as C by (destruct b; reflexivity). rewrite C in E. cbn [Z.gtb Z.eqb Z.compare bind] in E.
        injection E as <- <-. split; [auto|]. split; [auto|]. apply (DONE ns ((FPar, p) :: fs) cur e k er ts0); auto. cbn [expected]. pose proof (prec_range b). lia.
      * cbn [fcode] in E. rewrite compare_un in E. cbn [Z.gtb Z.compare] in E.
        unfold bind in E. destruct (select_three _) as [c1|] eqn:S in E; [|discriminate]. apply select_shape in S as (S1 & S2 & S3).
        destruct c1 as [ns1 op1 w1 er1]. cbn in S1, S2, S3. subst.
        destruct (reduce (FUn u) p fs k cur e W ltac:(discriminate) P X) as (k' & e' & P' & X' & K').
        eapply (IH ns1 fs _ k' e' er pos (TBin b) r c' (ftoks ((FUn u, p) :: fs) ++ cur)); eauto; [apply W|cbn [ftoks]; now rewrite <- app_assoc|].
        subst k'. pose proof (prec_range b). lia.
      * destruct (reduce (FBin ts1 e1 a) p fs k cur e W ltac:(discriminate) P X) as (k' & e' & P' & X' & K').
        cbn [fcode] in E. rewrite compare_bin in E. destruct (Z.compare_spec (prec a) (prec b)) as [Q|Q|Q]; cbn [Z.gtb Z.eqb Z.compare] in E.
        -- unfold bind in E. destruct (select_three _) as [c1|] eqn:S in E; [|discriminate]. apply select_shape in S as (S1 & S2 & S3).
           destruct c1 as [ns1 op1 w1 er1]. cbn in S1, S2, S3. subst. injection E as <- <-. split; [auto|]. split; [auto|].
           apply (DONE ns1 fs (ftok (FBin ts1 e1 a) ++ cur) e' (prec a) er (ftoks ((FBin ts1 e1 a, p) :: fs) ++ cur)); auto; [apply W|lia|]. cbn [ftoks]. now rewrite <- app_assoc.
        -- cbn [bind] in E. injection E as <- <-. split; [auto|]. split; [auto|].
           apply (DONE ns ((FBin ts1 e1 a, p) :: fs) cur e k er ts0); auto. cbn [expected]. lia.
        -- unfold bind in E. destruct (select_three _) as [c1|] eqn:S in E; [|discriminate]. apply select_shape in S as (S1 & S2 & S3).
           destruct c1 as [ns1 op1 w1 er1]. cbn in S1, S2, S3. subst.
           eapply (IH ns1 fs _ (prec a) e' er pos (TBin b) r c' (ftoks ((FBin ts1 e1 a, p) :: fs) ++ cur)); eauto; [apply W|cbn [ftoks]; now rewrite <- app_assoc|lia].
Qed.

Lemma number_shape fuel : forall fs cur e num ops n,
  fwf fs -> phrase 11 cur e -> apply_unary fuel (fflat fs) num = Some (ops, n) ->
  exists fs' cur' e', fwf fs' /\ phrase 11 cur' e' /\ ops = fflat fs' /\ ftoks fs ++ cur = ftoks fs' ++ cur'.
Proof.
  induction fuel as [|fuel IH]; intros fs cur e num ops n W P E; [discriminate|]. cbn [apply_unary] in E.
  destruct fs as [|[f p] fs].
  - injection E as <- <-. exists [], cur, e. auto.
  - rewrite speek_fflat, spop2_fflat in E. destruct f as [|u|ts e1 b].
    + injection E as <- <-. exists ((FPar, p) :: fs), cur, e. auto.
    + assert (exists m, apply_unary fuel (fflat fs) m = Some (ops, n)) as (m & E').
      { destruct u; cbn [fcode ucode] in E; try (eexists; exact E).
        change (TK_U_NEGATION =? TK_COMPL) with false in E. change (TK_U_NEGATION =? TK_NOT) with false in E. change (TK_U_NEGATION =? TK_U_NEGATION) with true in E. cbv iota in E.
        unfold bind in E. destruct (fits (- num)) as [m|]; [|discriminate]. eauto. }
      destruct (IH fs (utok u :: cur) (EUn u e) m ops n) as (fs' & cur' & e' & A & B & C & D); auto; [apply W|apply ph_unary; auto|].
      exists fs', cur', e'. repeat split; auto. rewrite <- D. cbn [ftoks ftok]. now rewrite <- app_assoc.
    + cbn [fcode] in E. pose proof (bincode_range b).
      assert (bincode b =? TK_COMPL = false /\ bincode b =? TK_NOT = false /\ bincode b =? TK_U_NEGATION = false /\ bincode b =? TK_U_PLUS = false)
        as (B1 & B2 & B3 & B4) by (unfold TK_COMPL, TK_NOT, TK_U_NEGATION, TK_U_PLUS; lia).
      rewrite B1, B2, B3, B4 in E. injection E as <- <-. exists ((FBin ts e1 b, p) :: fs), cur, e. auto.
Qed.

Lemma push_shape c pos t r c' ts : shape c ts -> push c pos (as_piece t) = Some (r, c') -> c_err c' = None ->
  c_err c = None /\ r = 0 /\ shape c' (ts ++ [t]).
Proof.
  intros (fs & W & O & K) E NE. destruct c as [ns ops was er]. cbn [c_op c_was] in *. subst ops.
  assert (NUM: forall n, (t = TNum n \/ t = TName) -> const_number (mkComp ns (fflat fs) was er) pos n = Some (r, c') -> er = None /\ r = 0 /\ shape c' (ts ++ [t])).
  { intros n T EN. unfold const_number in EN. cbn [c_was c_op c_num c_err] in EN. destruct was.
    - injection EN as <- <-. exfalso; revert NE; apply cfail_err.
    - unfold bind in EN. destruct (apply_unary _ _ _) as [[ops m]|] eqn:A in EN; [|discriminate]. injection EN as <- <-. cbn [c_err] in NE. split; [auto|]. split; [auto|].
      assert (exists e, phrase 11 [t] e) as (e & P) by (destruct T as [->| ->]; eauto using ph_num, ph_name).
      destruct (number_shape _ _ _ _ _ _ _ W P A) as (fs' & cur' & e' & W' & P' & -> & D).
      exists fs'. split; [auto|]. split; [reflexivity|]. cbn [c_was]. exists cur', e'. split; auto. subst ts. auto. }
  destruct was.
  - destruct K as (cur & e & P & TS).
    assert (TOK: (match t with TNum _ | TName => False | _ => True end) -> push_token (mkComp ns (fflat fs) true er) pos (match as_piece t with PTok tk => tk | _ => 0 end) = Some (r, c') -> er = None /\ r = 0 /\ shape c' (ts ++ [t])).
    { intros NT EN. eapply (token_shape _ ns fs cur 11 e er pos t); eauto; [apply expected_range|]. destruct t as [| | | |b| |]; auto. pose proof (prec_range b). lia. }
    destruct t as [n| | | |b| |]; cbn [as_piece push] in *; eauto.
  - assert (TOK: forall tk, as_piece t = PTok tk -> token_without_number (mkComp ns (fflat fs) false er) pos tk = (r, c') -> er = None /\ r = 0 /\ shape c' (ts ++ [t])).
    { intros tk T EN. unfold token_without_number in EN. cbn [c_op] in EN.
      assert (PUT: forall f, fcode f = fcode f -> ftok f = [t] -> (match f with FBin _ _ _ => False | _ => True end) -> c' = mkComp ns (fcode f :: pos :: fflat fs) false er -> r = 0 -> er = None /\ r = 0 /\ shape c' (ts ++ [t])).
      { intros f _ F1 F2 -> ->. cbn [c_err] in NE. split; [auto|]. split; [auto|]. exists ((f, pos) :: fs). split; [|split; [reflexivity|]].
        - cbn. destruct f; auto; contradiction.
        - cbn [c_was ftoks]. rewrite F1. subst ts. reflexivity. }
      destruct t as [n| | | |b| |]; cbn [as_piece] in T; try discriminate T; injection T as <-.
      - injection EN as <- <-. apply (PUT FPar); auto.
      - exfalso. revert NE. cbn in EN. repeat match type of EN with context[if ?c then _ else _] => destruct c end; try (destruct (spop2 _) as [[? ?] ?]); injection EN as <- <-; apply cfail_err.
      - destruct b; cbn in EN; try (injection EN as <- <-; apply (PUT (FUn Plus)); now auto); try (injection EN as <- <-; apply (PUT (FUn Minus)); now auto);
        exfalso; revert NE; repeat match type of EN with context[if ?c then _ else _] => destruct c end; try (destruct (spop2 _) as [[? ?] ?]); injection EN as <- <-; apply cfail_err.
      - injection EN as <- <-. apply (PUT (FUn Compl)); auto.
      - injection EN as <- <-. apply (PUT (FUn Not)); auto. }
    destruct t as [n| | | |b| |]; cbn [as_piece push] in *; eauto;
      unfold push_token in E; rewrite push_token_S in E; cbn [c_was negb] in E; (assert (EE := f_equal (fun o => match o with Some x => x | None => (0, computer_create) end) E)); cbv beta iota in EE; (eapply TOK; [reflexivity|exact EE]).
Qed.

Lemma pop_shape fuel : forall ns fs cur k e v c', fwf fs -> phrase k cur e -> expected fs <= k ->
  forall er, pop_loop fuel (mkComp ns (fflat fs) true er) = Some (v, c') -> c_err c' = None -> er = None /\ exists e', phrase 1 (ftoks fs ++ cur) e'.
Proof.
  induction fuel as [|fuel IH]; intros ns fs cur k e v c' W P X er E NE; [discriminate|]. cbn [pop_loop c_op] in E.
  destruct fs as [|[f p] fs].
  - change (speek (fflat []) =? ITEM_MAX) with true in E. cbv iota in E. destruct (spop _) in E. injection E as <- <-. cbn in NE. split; auto.
    exists e. apply (phrase_le k); auto. cbn in X. lia.
  - rewrite speek_fflat, fcode_item, spop2_fflat in E. destruct f as [|u|ts1 e1 b].
    + change (fcode FPar =? TK_L_BOUND) with true in E. cbv iota in E. injection E as <- <-. exfalso; revert NE; apply cfail_err.
    + rewrite (fcode_par (FUn u)) in E by discriminate. unfold bind in E. destruct (select_three _) as [c1|] eqn:S in E; [|discriminate]. apply select_shape in S as (S1 & S2 & S3).
      destruct c1 as [ns1 op1 w1 er1]. cbn in S1, S2, S3. subst.
      destruct (reduce (FUn u) p fs k cur e W ltac:(discriminate) P X) as (k' & e' & P' & X' & K').
      cbn [ftoks]. rewrite <- app_assoc. eapply (IH ns1 fs _ k' e' v c'); eauto. apply W.
    + rewrite (fcode_par (FBin ts1 e1 b)) in E by discriminate. unfold bind in E. destruct (select_three _) as [c1|] eqn:S in E; [|discriminate]. apply select_shape in S as (S1 & S2 & S3).
      destruct c1 as [ns1 op1 w1 er1]. cbn in S1, S2, S3. subst.
      destruct (reduce (FBin ts1 e1 b) p fs k cur e W ltac:(discriminate) P X) as (k' & e' & P' & X' & K').
      cbn [ftoks]. rewrite <- app_assoc. eapply (IH ns1 fs _ k' e' v c'); eauto. apply W.
Qed.

Lemma push_err c pos p r c' : push c pos p = Some (r, c') -> c_err c <> None -> c_err c' <> None.
Proof.
  assert (NW: forall c pos tk r c', token_without_number c pos tk = (r, c') -> c_err c <> None -> c_err c' <> None).
  { clear. intros c pos tk r c' E N. unfold token_without_number in E.
    repeat match type of E with context[if ?c then _ else _] => destruct c end; try (destruct (spop2 _) as [[? ?] ?]); injection E as <- <-; cbn; auto using cfail_err. }
  assert (S3: forall c c', select_three c = Some c' -> c_err c' = c_err c).
  { clear. intros c c'. unfold select_three. destruct (spop2 (c_op c)) as [[? ?] ?], (spop2 (c_num c)) as [[? ?] ?]. destruct (compute _ _ _); [|discriminate]. cbn. intros E. injection E as <-. reflexivity. }
  assert (T: forall fuel c pos tk r c', push_token_n fuel c pos tk = Some (r, c') -> c_err c <> None -> c_err c' <> None).
  { clear - NW S3. induction fuel as [|fuel IH]; intros c pos tk r c' E N; [discriminate|]. rewrite push_token_S in E.
    destruct (negb _); [injection E as E; eauto|]. destruct (_ || _); [injection E as <- <-; apply cfail_err|]. cbv zeta in E.
    destruct (_ && _); [injection E as <- <-; apply cfail_err|]. destruct (_ && _); [destruct (spop2 _) as [[? ?] ?]; injection E as <- <-; auto|].
    destruct (_ >? _).
    - unfold bind in E. destruct (select_three c) as [c1|] eqn:S; [|discriminate]. eapply IH; eauto. erewrite S3; eauto.
    - destruct (_ =? _); unfold bind in E.
      + destruct (select_three c) as [c1|] eqn:S; [|discriminate]. injection E as <- <-. cbn. erewrite S3; eauto.
      + injection E as <- <-. auto. }
  assert (C: forall n, const_number c pos n = Some (r, c') -> c_err c <> None -> c_err c' <> None).
  { intros n E N. unfold const_number in E. destruct (c_was c); [injection E as <- <-; apply cfail_err|]. unfold bind in E.
    destruct (apply_unary _ _ _) as [[? ?]|]; [|discriminate]. injection E as <- <-. auto. }
  destruct p; cbn [push]; unfold push_token; eauto.
Qed.

Lemma feed_err l : forall c v r, feed c l = Some (v, r) -> c_err c <> None -> r <> None.
Proof.
  induction l as [|[p x] l IH]; intros c v r E N; cbn [feed] in E.
  - unfold bind in E. destruct (pop_result c) as [[v1 c1]|] eqn:R; [|discriminate]. injection E as <- <-.
    unfold pop_result in R. destruct (_ =? _); [injection R as <- <-; apply cfail_err|]. destruct (negb _); [destruct (spop2 _) as [[? ?] ?]; injection R as <- <-; apply cfail_err|].
    revert N R. generalize (S (length (c_op c))) as fuel. intros fuel; revert c.
    induction fuel as [|fuel IH]; intros c N R; [discriminate|]. cbn [pop_loop] in R.
    destruct (_ =? _); [destruct (spop _); injection R as <- <-; auto|]. destruct (_ =? _); [destruct (spop2 _) as [[? ?] ?]; injection R as <- <-; apply cfail_err|].
    unfold bind in R. destruct (select_three c) as [c2|] eqn:S; [|discriminate]. apply (IH c2); auto.
    unfold select_three in S. destruct (spop2 (c_op c)) as [[? ?] ?], (spop2 (c_num c)) as [[? ?] ?]. destruct (compute _ _ _); [|discriminate]. cbn in S. injection S as <-. auto.
  - unfold bind in E. destruct (push c p x) as [[r1 c1]|] eqn:P; [|discriminate]. pose proof (push_err _ _ _ _ _ P N). destruct (_ || _); eauto. injection E as <- <-. auto.
Qed.

Theorem accepted ts : forall l c v ts0, hands l ts -> shape c ts0 -> feed c l = Some (v, None) -> exists e, phrase 1 (ts0 ++ ts) e.
Proof.
  induction ts as [|t ts IH]; intros l c v ts0 HL S E.
  - apply hands_nil in HL as ->. rewrite app_nil_r. cbn [feed] in E. unfold bind in E. destruct (pop_result c) as [[v1 c1]|] eqn:R; [|discriminate]. injection E as <- E.
    unfold pop_result in R. destruct (_ =? _); [injection R as <- <-; exfalso; revert E; apply cfail_err|].
    destruct (c_was c) eqn:WN; cbn [negb] in R; [|destruct (spop2 _) as [[? ?] ?]; injection R as <- <-; exfalso; revert E; apply cfail_err].
    destruct S as (fs & W & O & K). rewrite WN in K. destruct K as (cur & e & P & ->). destruct c as [ns ops was er]. cbn [c_op c_was] in *. subst.
    eapply (pop_shape _ ns fs cur 11 e v1 c1); eauto. apply expected_range.
  - apply hands_cons in HL as (p & l' & -> & HL). cbn [feed] in E. unfold bind in E. destruct (push c p (as_piece t)) as [[r c1]|] eqn:P; [|discriminate].
    destruct (c_err c1) eqn:CE.
    + exfalso. destruct (_ || _); [|congruence]. eapply feed_err; eauto. congruence.
    + destruct (push_shape _ _ _ _ _ _ S P CE) as (_ & -> & S'). cbn [Z.eqb orb] in E.
      destruct (IH l' c1 v (ts0 ++ [t]) HL S' E) as (e & PH). rewrite <- app_assoc in PH. eauto.
Qed.

Theorem evaluate_sound l ts v : hands l ts -> evaluate l = Some (v, None) -> exists e, phrase 1 ts e.
Proof.
  intros HL E. apply (accepted ts l computer_create v []); auto. exists []. repeat split.
Qed.

(** ** Nothing but arithmetic can fail. *)
Definition okcode (t : Z) : Prop := ~ (TK_U_NEGATION <= t <= TK_R_SHIFT).
Definition calm (c : computer) : Prop := exists fs, c_op c = flat fs /\ Forall (fun f => okcode (fst f)) fs.

Lemma compute_total op a b : okcode op -> exists r, compute op a b = Some r.
Proof.
  intros H. unfold compute.
  assert (op =? TK_MULT = false /\ op =? TK_DIV = false /\ op =? TK_MOD = false /\ op =? TK_ADD = false /\ op =? TK_SUB = false /\ op =? TK_L_SHIFT = false /\ op =? TK_R_SHIFT = false)
    as (-> & -> & -> & -> & -> & -> & ->) by (unfold okcode, TK_U_NEGATION, TK_R_SHIFT, TK_MULT, TK_DIV, TK_MOD, TK_ADD, TK_SUB, TK_L_SHIFT in *; lia).
  repeat match goal with |- context[if ?c then _ else _] => destruct c end; cbn; eauto.
Qed.
Lemma select_total c t p fs : c_op c = flat ((t, p) :: fs) -> Forall (fun f => okcode (fst f)) ((t, p) :: fs) ->
  exists c', select_three c = Some c' /\ c_op c' = flat fs /\ c_was c' = c_was c.
Proof.
  intros O F. inversion F as [|? ? F1 F2]; subst. unfold select_three. rewrite O. cbn [flat flat_map fst snd app spop2 spop]. destruct (spop2 (c_num c)) as [[y x] ns].
  destruct (compute_total t x y F1) as (r & ->). cbn. eauto.
Qed.
Lemma push_total fuel : forall c pos tk, calm c -> okcode tk -> (length (c_op c) < fuel)%nat -> exists r c', push_token_n fuel c pos tk = Some (r, c') /\ (r = 0 -> calm c').
Proof.
  induction fuel as [|fuel IH]; intros c pos tk C K F; [lia|]. rewrite push_token_S. destruct C as (fs & O & FA).
  assert (PUT: forall t, okcode t -> calm (set_op c (t :: pos :: c_op c))). { intros t T. exists ((t, pos) :: fs). split; [cbn; rewrite O; reflexivity|constructor; auto]. }
  destruct (negb (c_was c)).
  { destruct (token_without_number c pos tk) as [r c'] eqn:E. do 2 eexists. split; [reflexivity|]. intros ->. unfold token_without_number in E. unfold spush in E.
    repeat match type of E with context[if ?c then _ else _] => destruct c eqn:? end; try (destruct (spop2 _) as [[? ?] ?]); try discriminate E; injection E as <-; apply PUT; auto;
      exfalso; unfold okcode, TK_U_NEGATION, TK_R_SHIFT, TK_ADD, TK_SUB in *; lia. }
  destruct (_ || _); [do 2 eexists; split; [reflexivity|discriminate]|]. cbv zeta.
  destruct (_ && _) eqn:A1; [do 2 eexists; split; [reflexivity|discriminate]|].
  destruct ((speek (c_op c) =? TK_L_BOUND) && (tk =? TK_R_BOUND)) eqn:A2. { apply andb_true_iff in A2 as [A2 _]. rewrite O in A2 |- *. destruct fs as [|[t p] fs]; [exfalso; clear - A2; vm_compute in A2; discriminate|]. inversion FA; subst. do 2 eexists; split; [reflexivity|]. intros _. exists fs. split; auto. }
  assert (DONE: forall c1, calm c1 -> okcode tk -> calm (set_was (set_op c1 (spush (spush (c_op c1) pos) tk)) false)).
  { intros c1 (fs1 & O1 & F1) _. exists ((tk, pos) :: fs1). split; [cbn; rewrite O1; reflexivity|constructor; auto]. }
  destruct fs as [|[t p] fs].
  - rewrite O in *. change (speek (flat [])) with ITEM_MAX in *. rewrite Z.eqb_refl in A1. cbn [andb] in A1. unfold compare_priority. rewrite A1, Z.eqb_refl. cbn [orb Z.gtb Z.eqb Z.compare bind].
    do 2 eexists; split; [reflexivity|]. intros _. apply DONE; auto. exists []. auto.
  - destruct (select_total c t p fs O FA) as (c1 & E1 & O1 & W1). inversion FA; subst.
    assert (calm c1) by (exists fs; auto).
    destruct (_ >? 0).
    + rewrite E1. apply IH; auto. rewrite O in F. cbn in F. fold (flat fs) in F. rewrite O1. lia.
    + destruct (_ =? 0); [rewrite E1|]; cbn [bind]; do 2 eexists; (split; [reflexivity|]); intros _; apply DONE; auto. exists ((t, p) :: fs). auto.
Qed.
Lemma pop_total fuel : forall c, calm c -> (length (c_op c) < fuel)%nat -> exists r, pop_loop fuel c = Some r.
Proof.
  induction fuel as [|fuel IH]; intros c (fs & O & FA) F; [lia|]. cbn [pop_loop].
  destruct (_ =? ITEM_MAX) eqn:A; [destruct (spop _); eauto|]. destruct (_ =? TK_L_BOUND); [destruct (spop2 _) as [[? ?] ?]; eauto|].
  destruct fs as [|[t p] fs]; [rewrite O in A; vm_compute in A; discriminate A|]. destruct (select_total c t p fs O FA) as (c1 & -> & O1 & W1). cbn [bind]. inversion FA; subst.
  apply IH; [exists fs; auto|]. rewrite O in F. cbn in F. fold (flat fs) in F. rewrite O1. lia.
Qed.
Lemma unary_total fuel : forall fs n, Forall (fun f => okcode (fst f)) fs -> (length fs < fuel)%nat ->
  exists fs' m, apply_unary fuel (flat fs) n = Some (flat fs', m) /\ Forall (fun f => okcode (fst f)) fs'.
Proof.
  induction fuel as [|fuel IH]; intros fs n FA F; [lia|]. cbn [apply_unary]. destruct fs as [|[t p] fs].
  - exists [], n. cbn. auto.
  - inversion FA as [|? ? F1 F2]; subst. cbn [fst] in F1. cbn [flat flat_map fst snd app speek spop spop2]. fold (flat fs). cbn [length] in F.
    destruct (t =? TK_COMPL); [apply IH; auto; lia|]. destruct (t =? TK_NOT); [apply IH; auto; lia|].
    assert (t =? TK_U_NEGATION = false) as -> by (unfold okcode, TK_U_NEGATION, TK_R_SHIFT in *; lia).
    destruct (t =? TK_U_PLUS); [apply IH; auto; lia|]. exists ((t, p) :: fs), n. split; auto.
Qed.

(** Tokens whose operators never overflow, divide or shift. *)
Definition safe_tok (t : tok) : Prop := match t with TBin (Mul | Div | Rem | Add | Sub | Shl | Shr) => False | _ => True end.

Lemma flat_length fs : (length fs <= length (flat fs))%nat.
Proof. induction fs as [|[t p] fs IH]; [cbn; lia|]. cbn [flat flat_map fst snd app length]. fold (flat fs). lia. Qed.

Theorem feed_total ts : forall l c, hands l ts -> Forall safe_tok ts -> calm c -> exists r, feed c l = Some r.
Proof.
  induction ts as [|t ts IH]; intros l c HL ST C.
  - apply hands_nil in HL as ->. cbn [feed]. unfold pop_result. destruct (_ =? 0); [cbn; eauto|]. destruct (negb _); [destruct (spop2 _) as [[? ?] ?]; cbn; eauto|].
    destruct (pop_total (S (length (c_op c))) c C) as ([v c'] & ->); [lia|]. cbn. eauto.
  - inversion ST as [|? ? S1 S2]; subst. apply hands_cons in HL as (p & l' & -> & HL). cbn [feed].
    assert (exists r c', push c p (as_piece t) = Some (r, c') /\ (r = 0 \/ as_piece t = PName -> calm c')) as (r & c' & -> & CC).
    { assert (NUM: forall n, exists r c', const_number c p n = Some (r, c') /\ calm c').
      { intros n. unfold const_number. destruct (c_was c).
        - do 2 eexists; split; [reflexivity|]. unfold cfail. destruct (c_err c); auto.
        - destruct C as (fs & O & FA). rewrite O. destruct (unary_total (S (length (flat fs))) fs n FA) as (fs' & m & -> & F'); [pose proof (flat_length fs); lia|].
          do 2 eexists; split; [reflexivity|]. exists fs'. auto. }
      assert (TOK: forall tk, okcode tk -> exists r c', push_token c p tk = Some (r, c') /\ (r = 0 \/ PTok tk = PName -> calm c')).
      { intros tk K. destruct (push_total (S (length (c_op c))) c p tk C K) as (r & c' & E & Q); [lia|]. exists r, c'. split; auto. intros [->|X]; [auto|discriminate X]. }
      destruct t as [n| | | |b| |]; cbn [as_piece push];
        [destruct (NUM n) as (? & ? & -> & ?); eauto|destruct (NUM 0) as (? & ? & -> & ?); eauto| | | | | ];
        apply TOK; cbn [safe_tok] in S1; try destruct b; try contradiction; cbv; intros [? ?]; congruence. }
    cbn [bind]. destruct (r =? 0) eqn:R; cbn [orb].
    + apply IH; auto. apply CC. left. lia.
    + destruct (as_piece t) eqn:T; eauto.
Qed.

Theorem evaluate_rejects l ts : hands l ts -> ~ (exists e, phrase 1 ts e) -> Forall safe_tok ts -> exists v m, evaluate l = Some (v, Some m).
Proof.
  intros HL N ST. destruct (feed_total ts l computer_create HL ST) as ([v [m|]] & E); [exists []; auto|eauto|].
  exfalso. apply N. eapply evaluate_sound; eauto.
Qed.

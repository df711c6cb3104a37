(** C40, C41: preprocessor expressions. *)
From Verif Require Import Prelude ComputerModel ComputerSpec ComputerProofs.
Local Open Scope Z_scope.

(** C40.  An expression whose parts all have a value is given that value, without
    complaint.  Missing: [!], unary operators in front of a parenthesis, and
    expressions with a part that has no value behind a deciding [&&] or [||]; for
    these the claim is false, see below. *)
Theorem C40_values_follow_precedence_partial : forall l ts e,
  hands l ts -> phrase 1 ts e -> unary_fine e -> (forall e', In e' (parts e) -> value e' <> None) ->
  exists v, value e = Some v /\ evaluate l = Some (v, None).
Proof. intros l ts e HL P U D. exact (evaluate_ok ts e l P U D HL). Qed.
Print Assumptions C40_values_follow_precedence_partial.

Definition at0 (ts : list tok) : list (Z * piece) := map (fun t => (0, as_piece t)) ts.
Lemma at0_hands ts : hands (at0 ts) ts.
Proof. unfold hands, at0. rewrite map_map. reflexivity. Qed.

(** 1 - 2 - -3 * (4 + x) << 2 | 64 > 1 *)
Definition ex_toks : list tok := [TNum 1; TBin Sub; TNum 2; TBin Sub; TBin Sub; TNum 3; TBin Mul; TOpen; TNum 4; TBin Add; TName; TClose; TBin Shl; TNum 2; TBin BOr; TNum 64; TBin Gt; TNum 1].
Definition ex_expr : expr :=
  EBin BOr (EBin Shl (EBin Sub (EBin Sub (ENum 1) (ENum 2)) (EBin Mul (EUn Minus (ENum 3)) (EPar (EBin Add (ENum 4) (ENum 0))))) (ENum 2)) (EBin Gt (ENum 64) (ENum 1)).
Ltac weaker := apply ph_weaker; [lia|cbn [Z.add Pos.add Pos.succ]].
Ltac climb := repeat first [apply ph_num | apply ph_name | weaker].
Example C40_example : hands (at0 ex_toks) ex_toks /\ phrase 1 ex_toks ex_expr /\ unary_fine ex_expr
  /\ (forall e', In e' (parts ex_expr) -> value e' <> None) /\ value ex_expr = Some 45 /\ evaluate (at0 ex_toks) = Some (45, None).
Proof.
  split; [apply at0_hands|]. split.
  - unfold ex_toks, ex_expr. do 2 weaker.
    apply (ph_binary BOr [TNum 1; TBin Sub; TNum 2; TBin Sub; TBin Sub; TNum 3; TBin Mul; TOpen; TNum 4; TBin Add; TName; TClose; TBin Shl; TNum 2] [TNum 64; TBin Gt; TNum 1]).
    + cbn [prec]. do 5 weaker.
      apply (ph_binary Shl [TNum 1; TBin Sub; TNum 2; TBin Sub; TBin Sub; TNum 3; TBin Mul; TOpen; TNum 4; TBin Add; TName; TClose] [TNum 2]).
      * cbn [prec]. weaker. apply (ph_binary Sub [TNum 1; TBin Sub; TNum 2] [TBin Sub; TNum 3; TBin Mul; TOpen; TNum 4; TBin Add; TName; TClose]).
        -- apply (ph_binary Sub [TNum 1] [TNum 2]); cbn [prec Z.add Pos.add Pos.succ]; climb.
        -- apply (ph_binary Mul [TBin Sub; TNum 3] [TOpen; TNum 4; TBin Add; TName; TClose]).
           ++ cbn [prec]. weaker. apply (ph_unary Minus [TNum 3]). constructor.
           ++ apply (ph_paren [TNum 4; TBin Add; TName]). do 8 weaker. apply (ph_binary Add [TNum 4] [TName]); cbn [prec Z.add Pos.add Pos.succ]; climb.
      * cbn [prec Z.add Pos.add Pos.succ]. do 2 weaker. constructor.
    + cbn [prec Z.add Pos.add Pos.succ]. do 3 weaker. apply (ph_binary Gt [TNum 64] [TNum 1]); cbn [prec Z.add Pos.add Pos.succ]; climb.
  - split; [intros u e' H; cbn in H; repeat destruct H as [H|H]; try discriminate H; try contradiction; injection H as <- <-; split; discriminate|].
    split; [intros e' H; cbn [ex_expr parts app In] in H; repeat destruct H as [<-|H]; try contradiction; vm_compute; discriminate|].
    split; vm_compute; reflexivity.
Qed.

(** [!] on a number never gives the right value: the result is the truth of the
    number and not its negation. *)
Theorem C40_not_refuted : forall n, - 2 ^ 63 <= n < 2 ^ 63 ->
  exists v w, evaluate (at0 [TNot; TNum n]) = Some (v, None) /\ phrase 1 [TNot; TNum n] (EUn Not (ENum n)) /\ value (EUn Not (ENum n)) = Some w /\ v <> w.
Proof.
  intros n R. exists (if n =? 0 then 0 else 1), (if n =? 0 then 1 else 0). split; [|split; [|split]].
  - cbn. unfold b2z. destruct (n =? 0); reflexivity.
  - apply (phrase_le 11); [lia|]. apply (ph_unary Not [TNum n]). constructor.
  - cbn [value]. unfold c64. assert ((- 2 ^ 63 <=? n) && (n <? 2 ^ 63) = true) as -> by lia. cbn. unfold truth. destruct (n =? 0); reflexivity.
  - destruct (n =? 0); lia.
Qed.
Print Assumptions C40_not_refuted.

(** A unary operator in front of a parenthesis is applied to nothing and takes two
    numbers away: -(1) is 2^63-1, (-(1)) is no expression at all and -(1) + 2 goes
    wrong (it adds 2 to 2^63-1). *)
Theorem C40_minus_before_parenthesis_refuted :
  evaluate (at0 [TBin Sub; TOpen; TNum 1; TClose]) = Some (9223372036854775807, None)
  /\ evaluate (at0 [TOpen; TBin Sub; TOpen; TNum 1; TClose; TClose]) = Some (0, Some (DIRECTIVE_NO_EXPRESSION, ITEM_MAX))
  /\ evaluate (at0 [TBin Sub; TOpen; TNum 1; TClose; TBin Add; TNum 2]) = None
  /\ evaluate (at0 [TNum 7; TBin Add; TBin Sub; TOpen; TNum 1; TClose]) = None
  /\ value (EUn Minus (EPar (ENum 1))) = Some (-1).
Proof. repeat split; vm_compute; reflexivity. Qed.
Print Assumptions C40_minus_before_parenthesis_refuted.

(** [0 && 1 / 0] is 0 and [1 || 1 / 0] is 1 in C, but the division is done. *)
Theorem C40_short_circuit_refuted :
  value (EBin LAnd (ENum 0) (EBin Div (ENum 1) (ENum 0))) = Some 0
  /\ evaluate (at0 [TNum 0; TBin LAnd; TNum 1; TBin Div; TNum 0]) = None
  /\ value (EBin LOr (ENum 1) (EBin Div (ENum 1) (ENum 0))) = Some 1
  /\ evaluate (at0 [TNum 1; TBin LOr; TNum 1; TBin Div; TNum 0]) = None.
Proof. repeat split; vm_compute; reflexivity. Qed.
Print Assumptions C40_short_circuit_refuted.

(** C41.  Pieces that are no expression are never accepted: whatever value comes
    out, a message comes with it. *)
Theorem C41_malformed_is_never_accepted : forall l ts v m,
  hands l ts -> ~ (exists e, phrase 1 ts e) -> evaluate l = Some (v, m) -> m <> None.
Proof. intros l ts v m HL N E ->. apply N. exact (evaluate_sound l ts v HL E). Qed.
Print Assumptions C41_malformed_is_never_accepted.

(** And the message does come, unless arithmetic goes wrong before it.  Missing:
    expressions with operators that may overflow, divide by zero or shift too far;
    for these the claim is false, see below. *)
Theorem C41_malformed_is_reported_partial : forall l ts,
  hands l ts -> ~ (exists e, phrase 1 ts e) ->
  (forall b, In (TBin b) ts -> In b [Lt; Gt; Le; Ge; Eq; Ne; BAnd; BXor; BOr; LAnd; LOr]) ->
  exists v m, evaluate l = Some (v, Some m).
Proof.
  intros l ts HL N S. apply (evaluate_rejects l ts HL N). apply Forall_forall. intros t I. destruct t as [| | | |b| |]; cbn; auto.
  specialize (S b I). destruct b; cbn in S; auto; repeat (destruct S as [S|S]; [discriminate S|]); exact S.
Qed.
Print Assumptions C41_malformed_is_reported_partial.

(** [1 2] and [( 1 <] are no expressions. *)
Lemma no_phrase_12 : ~ exists e, phrase 1 [TNum 1; TNum 2] e.
Proof.
  intros (e & P).
  assert (forall k ts e, phrase k ts e -> ts <> [TNum 1; TNum 2]) as H; [|eapply H; eauto].
  clear. induction 1 as [| | |u| |]; intros X; try discriminate X; auto.
  - destruct u; discriminate X.
  - destruct l as [|t1 [|t2 [|t3 l]]]; try discriminate X.
Qed.
Example C41_example : hands (at0 [TNum 1; TNum 2]) [TNum 1; TNum 2] /\ ~ (exists e, phrase 1 [TNum 1; TNum 2] e)
  /\ evaluate (at0 [TNum 1; TNum 2]) = Some (0, Some (EXPR_MISSING_BINARY, 0))
  /\ evaluate (at0 [TOpen; TNum 1; TBin Lt]) = Some (0, Some (EXPR_NO_RIGHT_OPERAND, 0))
  /\ evaluate (at0 [TNum 1; TClose]) = Some (0, Some (EXPR_MISSING_L_BRACKET, 0))
  /\ evaluate (at0 [TOpen; TNum 1]) = Some (0, Some (EXPR_MISSING_R_BRACKET, 0))
  /\ evaluate (at0 [TOpen; TClose]) = Some (0, Some (EXPR_MISSING_BETWEEN, 0))
  /\ evaluate (at0 [TBin Mul; TNum 1]) = Some (0, Some (EXPR_NO_LEFT_OPERAND, 0))
  /\ evaluate (at0 []) = Some (0, Some (DIRECTIVE_NO_EXPRESSION, ITEM_MAX)).
Proof. split; [apply at0_hands|]. split; [apply no_phrase_12|]. repeat split; vm_compute; reflexivity. Qed.

(** The parenthesis nobody opened is not reported if a division by zero comes
    before it. *)
Theorem C41_undefined_before_report_refuted : evaluate (at0 [TNum 1; TBin Div; TNum 0; TBin Sub; TClose]) = None.
Proof. vm_compute. reflexivity. Qed.
Print Assumptions C41_undefined_before_report_refuted.

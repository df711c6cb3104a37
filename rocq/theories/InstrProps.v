(** C38: the variants of instructions. *)
From Verif Require Import Prelude TypesModel LexModel ParseModel InstrModel InstrSpec.

Definition meaning_dec (a b : meaning) : {a = b} + {a <> b}.
Proof. decide equality; try apply Bool.bool_dec; decide equality. Defined.
Definition entry_dec (a b : Z * meaning) : {a = b} + {a <> b}.
Proof. decide equality; [apply meaning_dec|apply Z.eq_dec]. Defined.
Definition entry (i : Z) (m : meaning) : bool := if in_dec entry_dec (i, m) meanings then true else false.
Lemma entry_means i m : entry i m = true <-> means i m.
Proof. unfold entry, means. destruct (in_dec _ _ _); split; auto; discriminate. Qed.

(** The six compound assignments to a variable which keep their result. *)
Definition kept (m : meaning) : bool :=
  match m with
  | IsSet (BIN_REM_ASSIGN | BIN_SHL_ASSIGN | BIN_SHR_ASSIGN | BIN_AND_ASSIGN | BIN_XOR_ASSIGN | BIN_OR_ASSIGN) false false false => true
  | _ => false
  end.

(** Does some instruction have this meaning? *)
Definition exists_for (m : meaning) : bool := existsb (fun p => if meaning_dec (snd p) m then true else false) meanings.
Lemma exists_for_ok m : exists_for m = true <-> exists j, means j m.
Proof.
  unfold exists_for, means. rewrite existsb_exists. split.
  - intros ([j m'] & I & E). cbn in E. destruct (meaning_dec m' m); [subst; eauto|discriminate].
  - intros [j I]. exists (j, m). cbn. destruct (meaning_dec m m); auto.
Qed.
Definition good (f : Z -> Z) (g : meaning -> option meaning) (p : Z * meaning) : bool :=
  match g (snd p) with
  | Some m' => if exists_for m' then entry (f (fst p)) m' else f (fst p) =? fst p
  | None => f (fst p) =? fst p
  end.
(** A variant: the instruction with the wanted meaning if there is one, else the
    instruction itself. *)
Definition variant_of (f : Z -> Z) (g : meaning -> option meaning) (i : Z) (m : meaning) : Prop :=
  match g m with
  | Some m' => (exists j, means j m') /\ means (f i) m' \/ (~ exists j, means j m') /\ f i = i
  | None => f i = i
  end.
Lemma good_variant f g (sel : meaning -> bool) : forallb (fun p => negb (sel (snd p)) || good f g p) meanings = true ->
  forall i m, means i m -> sel m = true -> variant_of f g i m.
Proof.
  intros H i m I S. rewrite forallb_forall in H. specialize (H (i, m) I). cbn [snd] in H. rewrite S in H. cbn in H. unfold good, variant_of in *. cbn [fst snd] in H.
  destruct (g m) as [m'|]; [|lia]. destruct (exists_for m') eqn:E.
  - left. split; [apply exists_for_ok; exact E|apply entry_means; exact H].
  - right. split; [rewrite <- exists_for_ok; congruence|lia].
Qed.

(** Every instruction has one meaning and every meaning one instruction. *)
Theorem C38_distinct : forall i j m m', means i m -> means j m' -> (i = j <-> m = m').
Proof.
  assert (H : forallb (fun p => forallb (fun q => Bool.eqb (fst p =? fst q) (if meaning_dec (snd p) (snd q) then true else false)) meanings) meanings = true)
    by (vm_compute; reflexivity).
  intros i j m m' I J. rewrite forallb_forall in H. specialize (H _ I). rewrite forallb_forall in H. specialize (H _ J). cbn [fst snd] in H.
  apply Bool.eqb_prop in H. destruct (Z.eqb_spec i j), (meaning_dec m m'); split; intros; congruence.
Qed.
Print Assumptions C38_distinct.

(** The instruction for an operator has the meaning of the operator. *)
Definition is_set (op : binary) : bool :=
  match op with
  | BIN_ASSIGN | BIN_MUL_ASSIGN | BIN_DIV_ASSIGN | BIN_REM_ASSIGN | BIN_ADD_ASSIGN | BIN_SUB_ASSIGN | BIN_SHL_ASSIGN
  | BIN_SHR_ASSIGN | BIN_AND_ASSIGN | BIN_XOR_ASSIGN | BIN_OR_ASSIGN => true
  | _ => false
  end.
Theorem C38_operators :
  (forall op, op <> BIN_COMMA ->
     means (binary_to_instruction op) (if is_set op then IsSet op false false false else IsOperator op false))
  /\ (forall op, In op [UN_POSTINC; UN_POSTDEC; UN_PREINC; UN_PREDEC] -> means (unary_to_instruction op) (IsStep op false false false))
  /\ (forall op, In op [UN_MINUS; UN_NOT; UN_LOGNOT] -> means (unary_to_instruction op) (IsSign op false)).
Proof.
  split; [|split].
  - intros op N. apply entry_means. destruct op; try (vm_compute; reflexivity). congruence.
  - intros op [<-|[<-|[<-|[<-|[]]]]]; apply entry_means; vm_compute; reflexivity.
  - intros op [<-|[<-|[<-|[]]]]; apply entry_means; vm_compute; reflexivity.
Qed.
Print Assumptions C38_operators.

(** The variant of an instruction stands for the same operator with the address
    on the stack, on floating numbers, or without a result; an instruction for
    which there is no such variant stays as it is.  The variants are asked of
    instructions on words with a result, of floating instructions only the one
    without a result.  Missing: six compound assignments, see below. *)
Theorem C38_variants_partial : forall i m, means i m ->
  (is_word m = true -> has_result m = true -> variant_of instruction_to_address_ver at_address i m)
  /\ (is_word m = true -> has_result m = true -> variant_of instruction_to_floating_ver floating i m)
  /\ (has_result m = true -> kept m = false -> variant_of instruction_to_void_ver void i m).
Proof.
  intros i m I. split; [|split].
  - intros A B. apply (good_variant _ _ (fun m => is_word m && has_result m)); [vm_compute; reflexivity|exact I|rewrite A, B; reflexivity].
  - intros A B. apply (good_variant _ _ (fun m => is_word m && has_result m)); [vm_compute; reflexivity|exact I|rewrite A, B; reflexivity].
  - intros A B. apply (good_variant _ _ (fun m => has_result m && negb (kept m))); [vm_compute; reflexivity|exact I|rewrite A, B; reflexivity].
Qed.
Print Assumptions C38_variants_partial.
Example C38_example : means IC_ADD_ASSIGN (IsSet BIN_ADD_ASSIGN false false false)
  /\ means (instruction_to_void_ver (instruction_to_floating_ver (instruction_to_address_ver IC_ADD_ASSIGN))) (IsSet BIN_ADD_ASSIGN true true true)
  /\ instruction_to_floating_ver IC_SHL = IC_SHL.
Proof. rewrite <- !entry_means. vm_compute. auto. Qed.

(** Numbers which are not among these instructions are left alone; six of the
    numbers that are no instruction at all are not. *)
Theorem C38_others_left_alone : forall i, (forall m, ~ means i m) ->
  instruction_to_address_ver i = i /\ instruction_to_floating_ver i = i
  /\ (instruction_to_void_ver i = i \/ 9062 <= i <= 9067).
Proof.
  intros i N.
  assert (L : forall k, (exists m, means k m) -> i <> k) by (intros k [m K] ->; exact (N m K)).
  assert (R : forall lo n, (forall k, (k < n)%nat -> exists m, means (lo + Z.of_nat k) m) -> ~ (lo <= i < lo + Z.of_nat n)).
  { intros lo n H B. apply (L (lo + Z.of_nat (Z.to_nat (i - lo)))); [apply H|]; lia. }
  assert (T : forall lo n, forallb (fun k => existsb (fun p => fst p =? lo + Z.of_nat k) meanings) (seq 0 n) = true -> ~ (lo <= i < lo + Z.of_nat n)).
  { intros lo n H. apply R. intros k Hk. rewrite forallb_forall in H. specialize (H k). rewrite existsb_exists in H. destruct H as ([j m] & I & E).
    - apply in_seq. lia.
    - cbn [fst] in E. exists m. unfold means. replace (lo + Z.of_nat k) with j by lia. exact I. }
  assert (A : ~ (9001 <= i < 9050)) by (apply (T 9001 49%nat); vm_compute; reflexivity).
  assert (B : ~ (9057 <= i < 9062)) by (apply (T 9057 5%nat); vm_compute; reflexivity).
  assert (C : ~ (9068 <= i < 9073)) by (apply (T 9068 5%nat); vm_compute; reflexivity).
  assert (D : ~ (9081 <= i < 9100)) by (apply (T 9081 19%nat); vm_compute; reflexivity).
  split; [|split].
  - unfold instruction_to_address_ver. destruct (table_find address_table i) eqn:E; [|reflexivity]. exfalso.
    assert (K : forall l : list (Z * Z), Forall (fun p => 9001 <= fst p < 9050) l -> table_find l i <> None -> 9001 <= i < 9050).
    { clear E. induction l as [|[k v] l IH]; [intros _ H; exfalso; apply H; reflexivity|]. intros F H. inversion F as [|? ? F1 F2]; subst. cbn in F1, H.
      destruct (Z.eq_dec k i) as [->|Q]; [exact F1|]. apply IH; [exact F2|]. replace (k =? i) with false in H by lia. replace (i =? k) with false in H by lia. exact H. }
    apply A, (K address_table); [|congruence]. apply Forall_forall. intros p Ip.
    assert (F : forallb (fun p => (9001 <=? fst p) && (fst p <? 9050)) address_table = true) by (vm_compute; reflexivity).
    rewrite forallb_forall in F. specialize (F p Ip). lia.
  - unfold instruction_to_floating_ver, within, IC_ASSIGN, IC_DIV_ASSIGN, IC_ASSIGN_AT, IC_DIV_ASSIGN_AT, IC_EQ, IC_UNMINUS.
    destruct (_ || _) eqn:E; lia.
  - unfold instruction_to_void_ver, within, IC_ASSIGN, IC_DIV_ASSIGN_AT, IC_POST_INC, IC_PRE_DEC_AT, IC_ASSIGN_R, IC_DIV_ASSIGN_AT_R, IC_POST_INC_R, IC_PRE_DEC_AT_R.
    destruct (_ || _) eqn:E; [right; lia|left; reflexivity].
Qed.
Print Assumptions C38_others_left_alone.
Example C38_others_example : (forall m, ~ means IC_PRINTF m) /\ instruction_to_void_ver IC_PRINTF = IC_PRINTF.
Proof.
  split; [|vm_compute; reflexivity]. intros m H. assert (E : existsb (fun p => fst p =? IC_PRINTF) meanings = true) by (apply existsb_exists; exists (IC_PRINTF, m); auto).
  vm_compute in E. discriminate.
Qed.

(** The full statement is false: [%=] and five more on a variable have a variant
    without a result in the list of instructions, but keep their result. *)
Theorem C38_variants_refuted : forall op, In op [BIN_REM_ASSIGN; BIN_SHL_ASSIGN; BIN_SHR_ASSIGN; BIN_AND_ASSIGN; BIN_XOR_ASSIGN; BIN_OR_ASSIGN] ->
  exists i j, means i (IsSet op false false false) /\ means j (IsSet op false false true) /\ instruction_to_void_ver i = i.
Proof.
  intros op H.
  assert (E : forallb (fun p => match snd p with IsSet o false false false => negb (kept (snd p)) || (instruction_to_void_ver (fst p) =? fst p) && entry (fst p + 200) (IsSet o false false true) | _ => true end) meanings = true)
    by (vm_compute; reflexivity).
  assert (M : means (binary_to_instruction op) (IsSet op false false false)) by (apply entry_means; repeat (destruct H as [<-|H]; [vm_compute; reflexivity|]); destruct H).
  rewrite forallb_forall in E. specialize (E _ M). cbn [fst snd] in E. replace (kept (IsSet op false false false)) with true in E by (repeat (destruct H as [<-|H]; [reflexivity|]); destruct H).
  cbn [negb orb] in E. apply andb_prop in E. destruct E as [E1 E2]. eexists _, _. split; [exact M|]. split; [apply entry_means; exact E2|lia].
Qed.
Print Assumptions C38_variants_refuted.

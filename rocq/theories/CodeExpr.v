(** Proofs: the code emitted for an expression, as a list, and what the machine
    does with it. *)
From Verif Require Import Prelude LVec TypesModel TypesSpec LexModel ParseModel InstrModel BuildModel BuildFold CodeModel VmSpec CodeSpec.

Lemma set_set_mem e m m' : set_mem (set_mem e m) m' = set_mem e m'.
Proof. reflexivity. Qed.
Lemma set_mem_same e : set_mem e (e_mem e) = e.
Proof. destruct e. reflexivity. Qed.
Lemma add_set e m v : mem_add (set_mem e m) v = set_mem e (m ++ [v]).
Proof. reflexivity. Qed.
Lemma add_unf e v : mem_add e v = set_mem e (e_mem e ++ [v]).
Proof. reflexivity. Qed.
Lemma size_set e m : mem_size (set_mem e m) = zlen m.
Proof. reflexivity. Qed.
Lemma mem_set_mem e m : e_mem (set_mem e m) = m.
Proof. reflexivity. Qed.
Lemma set_set e m i v : mem_set (set_mem e m) i v = set_mem e (lv_set m i v).
Proof. reflexivity. Qed.
Lemma displ_set e m id : displacements_get (set_mem e m) id = displacements_get e id.
Proof. reflexivity. Qed.

Lemma lv_set_mid l x r v i : i = zlen l -> lv_set (l ++ x :: r) i v = l ++ v :: r.
Proof.
  intros ->. unfold lv_set. rewrite zupd_unf. replace (zlen l <? 0) with false by (pose proof (zlen_nonneg l); lia).
  rewrite zlen_unf, Nat2Z.id. induction l; cbn; auto. f_equal; auto.
Qed.
Lemma lv_get_mid l x r i : i = zlen l -> lv_get (l ++ x :: r) i = x.
Proof. intros ->. apply lv_get_in. rewrite znth_app2 by lia. rewrite Z.sub_diag. reflexivity. Qed.

Lemma znil : zlen (@nil Z) = 0.
Proof. rewrite zlen_unf. reflexivity. Qed.
Lemma lv_set_app2 l r i v : zlen l <= i -> lv_set (l ++ r) i v = l ++ lv_set r (i - zlen l) v.
Proof.
  intros H. unfold lv_set. rewrite !zupd_unf. pose proof (zlen_nonneg l). replace (i <? 0) with false by lia.
  replace (i - zlen l <? 0) with false by lia. rewrite zlen_unf in *. replace (Z.to_nat i) with (length l + Z.to_nat (i - Z.of_nat (length l)))%nat by lia.
  generalize (Z.to_nat (i - Z.of_nat (length l))). intros k. clear. induction l; cbn; auto. f_equal. assumption.
Qed.
Lemma lv_set_cons x r i v : 0 < i -> lv_set (x :: r) i v = x :: lv_set r (i - 1) v.
Proof. intros. apply (lv_set_app2 [x] r i v). rewrite zlen_cons, znil. lia. Qed.
Lemma lv_set_here x r i v : i = 0 -> lv_set (x :: r) i v = v :: r.
Proof. intros ->. reflexivity. Qed.

Lemma strip_unqualified t : strip (unqualified t) = strip t.
Proof. destruct t; reflexivity. Qed.

Lemma fold_add_acc l a : fold_left Z.add l a = a + fold_left Z.add l 0.
Proof. revert a; induction l as [|x l IH]; intros; cbn; [lia|]. rewrite (IH (a + x)), (IH x). lia. Qed.
Lemma member_offset t i : member_displ t i = offset (members t) (Z.to_nat i).
Proof.
  unfold member_displ. generalize (members t). induction (Z.to_nat i) as [|k IH]; intros [|m ms]; cbn; auto.
  rewrite fold_add_acc, IH. lia.
Qed.
Lemma size_nonneg : forall t, 0 <= size_of t.
Proof.
  apply ty_rec'; intros; cbn; try lia.
  - destruct (_ =? _); lia.
  - induction H as [|[u x] ms U _ IH]; [lia|]. cbn in U. lia.
Qed.
Lemma offset_nonneg ms i : 0 <= offset ms i.
Proof.
  revert ms; induction i as [|i IH]; intros [|m ms]; cbn; try lia. pose proof (size_nonneg (fst m)). specialize (IH ms). lia.
Qed.

Ltac enc := repeat rewrite ?add_set, ?set_set_mem, ?size_set, ?set_set, ?displ_set, ?mem_set_mem.

Section Comp.
Variable c : ctx.
Variable disp : Z -> Z.

Definition lat (n : node) : list Z := if loads n then [IC_LAT] else [].
Definition drop (l : list Z) : list Z := match l with i :: r => instruction_to_void_ver i :: r | [] => [] end.
Definition step_code (op : unary) (x : node) : list Z :=
  if direct x then [unary_to_instruction op; displ_of disp x] else [instruction_to_address_ver (unary_to_instruction op)].
Definition set_code (op : binary) (x : node) : list Z :=
  if direct x then [binary_to_instruction op; displ_of disp x] else [instruction_to_address_ver (binary_to_instruction op)].

Fixpoint comp (n : node) (how : mode) (b : Z) {struct n} : list Z :=
  let place :=
    match n with
    | NSubscript t x i =>
        let cx := comp x Value b in
        cx ++ comp i Value (b + zlen cx) ++ [IC_SLICE; size_of t] ++ lat n
    | NMember t _ i arrow base =>
        if arrow then comp base Value b ++ [IC_SELECT; offset (members (element (type_of base))) (Z.to_nat i)] ++ lat n
        else if direct base then []
        else comp base Place b ++ [IC_SELECT; offset (members (type_of base)) (Z.to_nat i)] ++ lat n
    | NUnary _ _ _ x => if direct x then [IC_LOAD; displ_of disp x] else comp x Place b
    | _ => []
    end in
  let value :=
    match n with
    | NLit t l => match lit_value t l with Some v => [IC_LI; v] | None => [] end
    | NUnary _ _ op x =>
        if is_step op then comp x Place b ++ step_code op x
        else match op with
             | UN_ADDRESS => comp x Place b ++ (if direct x then [IC_LA; displ_of disp x] else [])
             | _ => comp x Value b ++ [unary_to_instruction op]
             end
    | NBinary _ op l r =>
        match op with
        | BIN_COMMA => let cl := comp l Void b in cl ++ comp r Value (b + zlen cl)
        | BIN_LOG_AND | BIN_LOG_OR =>
            let cl := comp l Value b in
            let cr := comp r Value (b + zlen cl + 3) in
            cl ++ [IC_DUPLICATE; (match op with BIN_LOG_AND => IC_BE0 | _ => IC_BNE0 end); b + zlen cl + 3 + zlen cr + 1]
               ++ cr ++ [binary_to_instruction op]
        | _ => let cl := comp l Value b in cl ++ comp r Value (b + zlen cl) ++ [binary_to_instruction op]
        end
    | NTernary _ x l r =>
        let cx := comp x Value b in
        let cl := comp l Value (b + zlen cx + 2) in
        let cr := comp r Value (b + zlen cx + 2 + zlen cl + 2) in
        cx ++ [IC_BE0; b + zlen cx + 2 + zlen cl + 2] ++ cl ++ [IC_B; b + zlen cx + 2 + zlen cl + 2 + zlen cr] ++ cr
    | NAssign _ op l r =>
        let cl := comp l Place b in cl ++ comp r Value (b + zlen cl) ++ set_code op l
    | _ => []
    end in
  match how with
  | Place => place
  | Value =>
      if is_lvalue n then if direct n then [IC_LOAD; displ_of disp n] else place ++ (if loads n then [] else [IC_LAT])
      else value
  | Void =>
      if is_lvalue n then place
      else match n with
           | NAssign _ op l r => let cl := comp l Place b in cl ++ comp r Value (b + zlen cl) ++ drop (set_code op l)
           | NUnary _ _ op x => comp x Place b ++ drop (step_code op x)
           | NBinary _ _ l r => let cl := comp l Void b in cl ++ comp r Void (b + zlen cl)
           | _ => []
           end
  end.

Lemma direct_comp n b : direct n = true -> comp n Place b = [].
Proof. destruct n; try discriminate; cbn; auto. destruct arrow; try discriminate. intros ->. reflexivity. Qed.
Lemma direct_loads n : direct n = true -> loads n = false.
Proof. unfold loads. intros ->. reflexivity. Qed.

(** The two forms of an operation on a variable: replacing the instruction by
    its variant without a result. *)
Lemma void_two e m i d : d < MIN_INSTRUCTION_CODE ->
  make_void (set_mem e (m ++ [i; d])) = set_mem e (m ++ [instruction_to_void_ver i; d]).
Proof.
  intros D. unfold make_void, mem_get. enc. rewrite zlen_app, !zlen_cons, zlen_nil.
  rewrite (lv_get_app2 m) by lia.
  replace (lv_get [i; d] (zlen m + (1 + (1 + 0)) - 1 - zlen m)) with d by (replace (zlen m + (1 + (1 + 0)) - 1 - zlen m) with 1 by lia; reflexivity).
  replace (d <? MIN_INSTRUCTION_CODE) with true by lia. rewrite lv_get_mid by lia. f_equal. apply lv_set_mid. lia.
Qed.
Lemma void_one e m i : MIN_INSTRUCTION_CODE <= i ->
  make_void (set_mem e (m ++ [i])) = set_mem e (m ++ [instruction_to_void_ver i]).
Proof.
  intros D. unfold make_void, mem_get. enc. rewrite zlen_app, !zlen_cons, zlen_nil.
  rewrite lv_get_mid by lia. replace (i <? MIN_INSTRUCTION_CODE) with false by lia. rewrite lv_get_mid by lia.
  f_equal. apply lv_set_mid. lia.
Qed.

Lemma address_step_min op : is_step op = true -> MIN_INSTRUCTION_CODE <= instruction_to_address_ver (unary_to_instruction op).
Proof. destruct op; try discriminate; intros _; vm_compute; discriminate. Qed.
Lemma address_set_min op : is_assignment op = true -> MIN_INSTRUCTION_CODE <= instruction_to_address_ver (binary_to_instruction op).
Proof. destruct op; try discriminate; intros _; vm_compute; discriminate. Qed.

Ltac andb := repeat match goal with H : _ && _ = true |- _ => apply andb_prop in H; destruct H end.

Lemma voiding n : supported c disp n Void = true -> is_lvalue n = false ->
  forall e m b, make_void (set_mem e (m ++ comp n Value b)) = set_mem e (m ++ comp n Void b).
Proof.
  induction n; intros S L e m b; cbn [is_lvalue] in L; try discriminate L; cbn [supported is_lvalue] in S; try rewrite L in S;
    andb; try discriminate.
  - (* unary *)
    cbn [comp is_lvalue]. rewrite L.
    match goal with H : is_step op = true |- _ => rename H into P; rewrite P in * end.
    match goal with H : droppable_step _ _ = true |- _ => rename H into D end.
    unfold droppable_step in D. unfold step_code. destruct (direct n) eqn:DX.
    + rewrite !app_assoc, void_two by lia. rewrite direct_comp by exact DX. reflexivity.
    + rewrite !app_assoc, void_one by (apply address_step_min; exact P). reflexivity.
  - (* comma *)
    destruct op; try discriminate. andb. cbn [comp is_lvalue]. rewrite !app_assoc.
    match goal with H : negb (is_lvalue n2) = true |- _ => apply negb_true_iff in H; rename H into L2 end.
    apply IHn2; assumption.
  - (* assignment *)
    cbn [comp is_lvalue].
    match goal with H : droppable _ _ _ = true |- _ => rename H into D end.
    match goal with H : is_assignment _ = true |- _ => rename H into A end.
    unfold droppable in D. unfold set_code. rewrite !app_assoc. destruct (direct n1) eqn:DX.
    + apply andb_prop in D. destruct D as [D _]. rewrite void_two by lia. reflexivity.
    + rewrite void_one by (apply address_set_min; exact A). reflexivity.
Qed.

(** The lvalue the generator returns. *)
Definition lvalue_of (n : node) (v : lvalue) : Prop :=
  if direct n then exists t, v = LVariable t (displ_of disp n) /\ strip t = strip (type_of n)
  else exists t, v = LAddress t /\ strip t = strip (type_of n).

Definition emits (n : node) : Prop := forall how e, supported c disp n how = true ->
  (forall id, In id (uses n) -> displacements_get e id = disp id) ->
  snd (emit c n how e) = set_mem e (e_mem e ++ comp n how (mem_size e))
  /\ (how = Place -> lvalue_of n (fst (emit c n how e))).

Lemma snd_emit n how e m : emits n -> supported c disp n how = true ->
  (forall id, In id (uses n) -> displacements_get e id = disp id) ->
  snd (emit c n how (set_mem e m)) = set_mem e (m ++ comp n how (zlen m)).
Proof. intros E S U. destruct (E how (set_mem e m) S U) as [Q _]. exact Q. Qed.

Lemma emit_place n e m : emits n -> supported c disp n Place = true ->
  (forall id, In id (uses n) -> displacements_get e id = disp id) ->
  exists v, emit c n Place (set_mem e m) = (v, set_mem e (m ++ comp n Place (zlen m))) /\ lvalue_of n v.
Proof.
  intros E S U. destruct (E Place (set_mem e m) S U) as [Q V]. specialize (V eq_refl).
  destruct (emit c n Place (set_mem e m)) as [v e']. exists v. cbn [snd fst] in Q, V. rewrite Q. split; auto.
Qed.

Lemma loads_types n : loads n = true -> (is_array (type_of n) || is_pointer (type_of n)) = true.
Proof.
  unfold loads. intros L. apply andb_prop in L. destruct L as [_ L]. destruct n; try discriminate L; cbn [type_of]; [|exact L].
  rewrite L. reflexivity.
Qed.
Lemma load_value n v e m : lvalue_of n v -> one_word (type_of n) = true ->
  (direct n || loads n || is_integer (type_of n)) = true ->
  emit_load_of_lvalue (set_mem e m) v =
  set_mem e (m ++ (if direct n then [IC_LOAD; displ_of disp n] else if loads n then [] else [IC_LAT])).
Proof.
  unfold lvalue_of, one_word. intros V O R. apply andb_prop in O. destruct O as [O1 O2].
  apply negb_true_iff in O1, O2. destruct (direct n) eqn:D.
  - destruct V as (t & -> & T). cbn [emit_load_of_lvalue]. unfold is_structure, is_floating in *. rewrite T, O1, O2.
    enc. rewrite <- app_assoc. reflexivity.
  - destruct V as (t & -> & T). cbn [emit_load_of_lvalue]. pose proof (loads_types n) as A.
    unfold is_structure, is_array, is_pointer, is_integer in *.
    rewrite T, O1. destruct (loads n) eqn:L.
    + specialize (A eq_refl). rewrite app_nil_r. destruct (strip (type_of n)); cbn in A |- *; try discriminate A; reflexivity.
    + cbn [orb] in R. destruct (strip (type_of n)); try discriminate R; cbn [negb andb]; [rewrite R|]; reflexivity.
Qed.

Ltac ands := repeat match goal with H : _ && _ = true |- _ => apply andb_prop in H; destruct H end.
Ltac inside := intros; match goal with U : forall id, In id _ -> _ |- _ => apply U; cbn [uses]; rewrite ?in_app_iff; auto 6 end.
(** Emit a part and continue with the rest. *)
Ltac part := match goal with
  | |- context [snd (emit c ?x ?h (set_mem ?e ?m))] =>
      rewrite (snd_emit x h e m) by (assumption || inside)
  end.

(** Places. *)
Lemma emits_place n : (forall x, In x (match n with NSubscript _ a b => [a; b] | NMember _ _ _ _ a | NUnary _ _ _ a => [a] | _ => [] end) -> emits x) ->
  forall e m, supported c disp n Place = true -> (forall id, In id (uses n) -> displacements_get e id = disp id) ->
  exists v, emit c n Place (set_mem e m) = (v, set_mem e (m ++ comp n Place (zlen m))) /\ lvalue_of n v.
Proof.
  intros I e m S U.
  destruct n; cbn [supported] in S; try discriminate S.
  - (* identifier *)
    cbn [emit comp]. enc. rewrite app_nil_r. eexists; split; [reflexivity|]. unfold lvalue_of. cbn [direct displ_of type_of].
    rewrite (U id) by (left; reflexivity). eexists; split; [reflexivity|]. rewrite strip_unqualified. apply ty_eqb_eq in S. rewrite S. reflexivity.
  - (* subscript *)
    ands. cbn [emit comp]. cbv zeta. assert (I1 := I n1 (or_introl eq_refl)). assert (I2 := I n2 (or_intror (or_introl eq_refl))).
    part. part. enc. eexists. split.
    + f_equal. unfold lat, loads. cbn [direct negb andb]. destruct (is_array t); enc; rewrite ?zlen_app, <- ?app_assoc; cbn [app]; reflexivity.
    + unfold lvalue_of. cbn [direct type_of]. eauto.
  - (* member *)
    ands. assert (I1 := I n (or_introl eq_refl)). cbn [emit comp]. cbv zeta. destruct arrow; ands.
    + part. enc. eexists. split.
      * f_equal. unfold lat, loads. cbn [direct negb andb]. rewrite member_offset.
        destruct (is_array t || is_pointer t); enc; rewrite <- ?app_assoc; cbn [app]; reflexivity.
      * unfold lvalue_of. cbn [direct type_of]. eauto.
    + match goal with H : supported _ _ n Place = true |- _ => rename H into SP end.
      destruct (emit_place n e m I1 SP) as (v & Q & V); [inside|]. rewrite Q. unfold lvalue_of in V. destruct (direct n) eqn:D.
      * destruct V as (u & -> & T). eexists. split.
        -- rewrite (direct_comp n _ D). reflexivity.
        -- unfold lvalue_of. cbn [direct type_of displ_of]. rewrite D, member_offset. eauto.
      * destruct V as (u & -> & T). enc. eexists. split.
        -- f_equal. unfold lat, loads. cbn [direct]. rewrite D. cbn [negb andb]. rewrite member_offset.
           destruct (is_array t || is_pointer t); enc; rewrite <- ?app_assoc; cbn [app]; reflexivity.
        -- unfold lvalue_of. cbn [direct type_of]. rewrite D. eauto.
  - (* indirection *)
    destruct op; try discriminate S. ands. assert (I1 := I n (or_introl eq_refl)).
    match goal with H : supported _ _ n Place = true |- _ => rename H into SP end.
    cbn [emit comp]. destruct (emit_place n e m I1 SP) as (v & Q & V); [inside|]. rewrite Q. unfold lvalue_of in V. destruct (direct n) eqn:D.
    + destruct V as (u & -> & T). rewrite (direct_comp n _ D). enc. eexists. split.
      * rewrite <- !app_assoc. cbn [app]. reflexivity.
      * unfold lvalue_of. cbn [direct type_of]. eexists. split; [reflexivity|]. apply strip_unqualified.
    + destruct V as (u & -> & T). eexists. split; [reflexivity|].
      unfold lvalue_of. cbn [direct type_of]. eexists. split; [reflexivity|]. apply strip_unqualified.
Qed.

Lemma literal_code e m t l v : lit_value t l = Some v -> emit_literal c (set_mem e m) t l = set_mem e (m ++ [IC_LI; v]).
Proof.
  unfold lit_value, emit_literal. intros Q. replace (m ++ [IC_LI; v]) with ((m ++ [IC_LI]) ++ [v]) by (rewrite <- app_assoc; reflexivity).
  destruct (unqualified t) as [k| | | | | |]; try discriminate Q.
  - destruct l; try discriminate Q;
    (match type of Q with (if ?k =? ?K then _ else _) = _ => destruct (k =? K) eqn:E; [apply Z.eqb_eq in E; subst|discriminate Q] end);
    injection Q as <-; try reflexivity.
  - destruct l; try discriminate Q. injection Q as <-. reflexivity.
Qed.

Lemma floating_no t : negb (is_floating t) = true -> is_floating t = false.
Proof. apply negb_true_iff. Qed.

Lemma set_add_mid e m x r v i : i = zlen m -> mem_set (set_mem e (m ++ x :: r)) i v = set_mem e (m ++ v :: r).
Proof. intros. enc. rewrite lv_set_mid by assumption. reflexivity. Qed.

Ltac flat := rewrite ?zlen_app, ?zlen_cons, ?znil, <- ?app_assoc; cbn [app].
(** Set a word of the code just emitted. *)
Ltac poke := repeat (first [rewrite lv_set_app2 by lia | rewrite lv_set_cons by lia]); rewrite lv_set_here by lia.

Lemma emit_value_lvalue n e : is_lvalue n = true ->
  emit c n Value e = (no_lvalue, let (v, e) := emit c n Place e in emit_load_of_lvalue e v).
Proof. destruct n; cbn [is_lvalue]; try discriminate; intros L; cbn [emit is_lvalue]; rewrite ?L; reflexivity. Qed.
Lemma emit_void_lvalue n e : is_lvalue n = true -> emit c n Void e = (no_lvalue, snd (emit c n Place e)).
Proof. destruct n; cbn [is_lvalue]; try discriminate; intros L; cbn [emit is_lvalue]; rewrite ?L; reflexivity. Qed.
Lemma comp_value_lvalue n b : is_lvalue n = true ->
  comp n Value b = if direct n then [IC_LOAD; displ_of disp n] else comp n Place b ++ (if loads n then [] else [IC_LAT]).
Proof. destruct n; cbn [is_lvalue]; try discriminate; intros L; cbn [comp is_lvalue]; rewrite ?L; reflexivity. Qed.
Lemma comp_void_lvalue n b : is_lvalue n = true -> comp n Void b = comp n Place b.
Proof. destruct n; cbn [is_lvalue]; try discriminate; intros L; cbn [comp is_lvalue]; rewrite ?L; reflexivity. Qed.
Lemma supported_value_lvalue n : is_lvalue n = true ->
  supported c disp n Value = supported c disp n Place && one_word (type_of n) && (direct n || loads n || is_integer (type_of n)).
Proof. destruct n; cbn [is_lvalue]; try discriminate; intros L; cbn [supported is_lvalue]; rewrite ?L; reflexivity. Qed.
Lemma supported_void_lvalue n : is_lvalue n = true ->
  supported c disp n Void = supported c disp n Place && direct n && one_word (type_of n).
Proof. destruct n; cbn [is_lvalue]; try discriminate; intros L; cbn [supported is_lvalue]; rewrite ?L; reflexivity. Qed.

(** The goal for one way of emitting, with the memory named. *)
Definition emitted (n : node) (how : mode) (e : enc) (m : list Z) : Prop :=
  snd (emit c n how (set_mem e m)) = set_mem e (m ++ comp n how (zlen m)).

Lemma emits_intro n :
  (forall how e m, supported c disp n how = true -> (forall id, In id (uses n) -> displacements_get e id = disp id) ->
     emitted n how e m) ->
  (forall e m, supported c disp n Place = true -> (forall id, In id (uses n) -> displacements_get e id = disp id) ->
     lvalue_of n (fst (emit c n Place (set_mem e m)))) -> emits n.
Proof.
  intros A B how e S U. generalize (A how e (e_mem e) S U). unfold emitted. rewrite set_mem_same. intros X. split; [exact X|].
  intros ->. generalize (B e (e_mem e) S U). rewrite set_mem_same. auto.
Qed.

Lemma emits_lvalue n : is_lvalue n = true ->
  (forall e m, supported c disp n Place = true -> (forall id, In id (uses n) -> displacements_get e id = disp id) ->
     exists v, emit c n Place (set_mem e m) = (v, set_mem e (m ++ comp n Place (zlen m))) /\ lvalue_of n v) -> emits n.
Proof.
  intros L P. apply emits_intro.
  - intros how e m S U. unfold emitted. destruct how.
    + rewrite supported_value_lvalue in S by exact L. ands. destruct (P e m) as (v & Q & V); [assumption..|].
      rewrite emit_value_lvalue, Q by exact L. cbn [snd]. rewrite (load_value n) by assumption.
      rewrite comp_value_lvalue by exact L. destruct (direct n) eqn:D; [rewrite direct_comp by exact D|]; rewrite <- app_assoc; reflexivity.
    + destruct (P e m S U) as (v & Q & _). rewrite Q. reflexivity.
    + rewrite supported_void_lvalue in S by exact L. ands. destruct (P e m) as (v & Q & V); [assumption..|].
      rewrite emit_void_lvalue, Q, comp_void_lvalue by exact L. reflexivity.
  - intros e m S U. destruct (P e m S U) as (v & Q & V). rewrite Q. exact V.
Qed.

Lemma emit_void_value n e : is_lvalue n = false -> emit c n Void e = (no_lvalue, make_void (snd (emit c n Value e))).
Proof. destruct n; cbn [is_lvalue]; try discriminate; intros L; cbn [emit is_lvalue snd]; rewrite ?L; reflexivity. Qed.
Lemma supported_void_value n : is_lvalue n = false -> supported c disp n Void = true -> supported c disp n Value = true.
Proof.
  destruct n; cbn [is_lvalue]; try discriminate; intros L; cbn [supported is_lvalue]; rewrite ?L; intros S; try discriminate S;
    apply andb_prop in S; destruct S as [S _]; exact S.
Qed.

(** For an expression which is not an lvalue the value is enough. *)
Lemma emits_value n : is_lvalue n = false -> (supported c disp n Place = true -> False) ->
  (forall e m, supported c disp n Value = true -> (forall id, In id (uses n) -> displacements_get e id = disp id) ->
     emitted n Value e m) -> emits n.
Proof.
  intros L P V. apply emits_intro.
  - intros how e m S U. destruct how; [apply V; assumption|destruct (P S)|].
    unfold emitted. rewrite emit_void_value by exact L. cbn [snd].
    rewrite (V e m (supported_void_value n L S) U). apply voiding; assumption.
  - intros e m S. destruct (P S).
Qed.

Theorem emits_all : forall n, emits n.
Proof.
  induction n.
  - apply emits_lvalue; [reflexivity|]. apply emits_place. intros x [].
  - apply emits_value; [reflexivity|discriminate|]. intros e m S U. unfold emitted. cbn [supported is_lvalue] in S.
    destruct (lit_value t l) as [v|] eqn:Q; [|discriminate S].
    cbn [emit comp is_lvalue snd]. rewrite Q. apply literal_code. exact Q.
  - apply emits_lvalue; [reflexivity|]. apply emits_place. intros x [<-|[<-|[]]]; assumption.
  - apply emits_value; [reflexivity|discriminate|]. discriminate.
  - destruct lvalue eqn:L.
    + apply emits_lvalue; [reflexivity|]. apply emits_place. intros x [<-|[]]; assumption.
    + apply emits_value; [reflexivity|discriminate|]. discriminate.
  - apply emits_value; [reflexivity|discriminate|]. discriminate.
  - (* unary *)
    destruct lvalue eqn:L.
    + apply emits_lvalue; [reflexivity|]. apply emits_place. intros x [<-|[]]; assumption.
    + apply emits_value; [reflexivity|destruct op; discriminate|]. intros e m S U. unfold emitted. cbn [supported is_lvalue] in S.
      cbn [emit comp is_lvalue snd]. destruct (is_step op) eqn:P.
      * ands. match goal with H : supported _ _ n Place = true |- _ => rename H into SP end.
        match goal with H : negb (is_floating t) = true |- _ => apply negb_true_iff in H; rewrite H end.
        destruct (emit_place n e m IHn SP) as (v & Q & V); [inside|]. rewrite Q. unfold lvalue_of in V. unfold step_code.
        destruct (direct n); destruct V as (u & -> & _); enc; rewrite <- ?app_assoc; reflexivity.
      * destruct op; try discriminate S; try discriminate P; ands.
        -- match goal with H : supported _ _ n Place = true |- _ => rename H into SP end.
           destruct (emit_place n e m IHn SP) as (v & Q & V); [inside|]. rewrite Q. unfold lvalue_of in V.
           destruct (direct n); destruct V as (u & -> & _); enc; rewrite <- ?app_assoc, ?app_nil_r; reflexivity.
        -- part. enc. match goal with H : is_integer t = true |- _ => rewrite H end. rewrite <- app_assoc. reflexivity.
        -- part. enc. rewrite <- app_assoc. reflexivity.
        -- part. enc. rewrite <- app_assoc. reflexivity.
        -- part. enc. match goal with H : is_integer t = true |- _ => rewrite H end. rewrite <- app_assoc. reflexivity.
  - (* binary *)
    apply emits_value; [reflexivity|discriminate|]. intros e m S U. unfold emitted. cbn [supported is_lvalue] in S.
    destruct op; cbn [is_plain_operator andb] in S; try discriminate S; ands; cbn [emit comp is_lvalue snd is_logical];
      try (match goal with H : negb (is_floating _) = true |- _ => apply negb_true_iff in H; rewrite H end);
      part; cbv zeta; enc; unfold mem_reserve; enc; part; enc; flat; try reflexivity.
    all: replace (zlen m + zlen (comp n1 Value (zlen m)) + (1 + 0) + (1 + 0) + (1 + 0))
           with (zlen m + zlen (comp n1 Value (zlen m)) + 3) by lia.
    all: pose proof (zlen_nonneg m); pose proof (zlen_nonneg (comp n1 Value (zlen m))).
    all: poke; rewrite <- ?app_assoc; cbn [app]; reflexivity.
  - (* ternary *)
    apply emits_value; [reflexivity|discriminate|]. intros e m S U. unfold emitted. cbn [supported is_lvalue] in S. ands.
    cbn [emit comp is_lvalue snd]. unfold mem_reserve. cbv zeta. part.
    pose proof (zlen_nonneg m). pose proof (zlen_nonneg (comp n1 Value (zlen m))).
    set (k1 := comp n1 Value (zlen m)) in *.
    enc. part. enc. flat.
    replace (zlen m + zlen k1 + (1 + 0) + (1 + 0)) with (zlen m + zlen k1 + 2) by lia.
    set (k2 := comp n2 Value (zlen m + zlen k1 + 2)) in *. pose proof (zlen_nonneg k2).
    poke. part. enc. flat.
    replace (zlen m + (zlen k1 + (1 + (1 + zlen k2))) + (1 + (1 + 0))) with (zlen m + zlen k1 + 2 + zlen k2 + 2) by lia.
    set (k3 := comp n3 Value (zlen m + zlen k1 + 2 + zlen k2 + 2)) in *.
    poke. flat. reflexivity.
  - (* assignment *)
    apply emits_value; [reflexivity|discriminate|]. intros e m S U. unfold emitted. cbn [supported is_lvalue] in S. ands.
    cbn [emit comp is_lvalue snd].
    match goal with H : supported _ _ n1 Place = true |- _ => rename H into SP end.
    match goal with H : one_word t = true |- _ => rename H into W end.
    unfold one_word in W. apply andb_prop in W. destruct W as [W1 W2]. apply negb_true_iff in W1, W2.
    destruct (emit_place n1 e m IHn1 SP) as (v & Q & V); [inside|]. rewrite Q. cbv zeta. part. rewrite W1, W2.
    unfold lvalue_of in V. unfold set_code. destruct (direct n1); destruct V as (u & -> & _); enc; flat; reflexivity.
  - apply emits_value; [reflexivity|discriminate|]. discriminate.
  - apply emits_value; [reflexivity|discriminate|]. discriminate.
Qed.
End Comp.

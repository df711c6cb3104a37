(** Proofs for C31. *)
From Verif Require Import Prelude LVec TypesModel TypesSpec LexModel ParseModel InstrModel BuildModel CodeModel StoreSpec CodeExpr.

(** ** Induction over trees with lists *)
Lemma node_ind' (P : node -> Prop) :
  (forall t id, P (NIdent t id)) -> (forall t l, P (NLit t l)) -> (forall t a b, P a -> P b -> P (NSubscript t a b)) ->
  (forall t f args, Forall P args -> P (NCall t f args)) -> (forall t l i ar a, P a -> P (NMember t l i ar a)) ->
  (forall t fr a, P a -> P (NCast t fr a)) -> (forall t l op a, P a -> P (NUnary t l op a)) ->
  (forall t op a b, P a -> P b -> P (NBinary t op a b)) -> (forall t a b d, P a -> P b -> P d -> P (NTernary t a b d)) ->
  (forall t op a b, P a -> P b -> P (NAssign t op a b)) -> (forall t es, Forall P es -> P (NInit t es)) -> P NBroken ->
  forall n, P n.
Proof.
  intros H1 H2 H3 H4 H5 H6 H7 H8 H9 H10 H11 H12. fix F 1. intros [].
  - apply H1. - apply H2. - apply H3; apply F. - apply H4. induction args; constructor; [apply F|assumption].
  - apply H5, F. - apply H6, F. - apply H7, F. - apply H8; apply F. - apply H9; apply F. - apply H10; apply F.
  - apply H11. induction es; constructor; [apply F|assumption]. - apply H12.
Qed.
Lemma smember_ind' (P : smember -> Prop) :
  (forall t bs, P (MField t bs)) -> (forall t ms, Forall P ms -> P (MStruct t ms)) -> forall m, P m.
Proof. intros H1 H2. fix F 1. intros []; [apply H1|]. apply H2. induction ms; constructor; [apply F|assumption]. Qed.
Lemma stmt_ind' (P : stmt -> Prop) :
  (forall ds, P (SDecl ds)) -> (forall x s, P s -> P (SCase x s)) -> (forall s, P s -> P (SDefault s)) ->
  (forall ss, Forall P ss -> P (SCompound ss)) -> (forall x, P (SExpr x)) -> P SNull ->
  (forall x s o, P s -> (forall s', o = Some s' -> P s') -> P (SIf x s o)) -> (forall x s, P s -> P (SSwitch x s)) ->
  (forall x s, P s -> P (SWhile x s)) -> (forall s x, P s -> P (SDo s x)) ->
  (forall i x n b, (forall s', i = Some s' -> P s') -> P b -> P (SFor i x n b)) -> P SContinue -> P SBreak -> (forall x, P (SReturn x)) ->
  forall s, P s.
Proof.
  intros H1 H2 H3 H4 H5 H6 H7 H8 H9 H10 H11 H12 H13 H14. fix F 1. intros [].
  - apply H1. - apply H2, F. - apply H3, F. - apply H4. induction ss; constructor; [apply F|assumption]. - apply H5. - apply H6.
  - apply H7; [apply F|]. destruct other; [|discriminate]. intros s' [= <-]. apply F.
  - apply H8, F. - apply H9, F. - apply H10, F.
  - apply H11; [|apply F]. destruct init; [|discriminate]. intros s' [= <-]. apply F.
  - apply H12. - apply H13. - apply H14.
Qed.

(** ** What the code of an expression leaves alone *)
Record keeps (L : list Z) (e e' : enc) : Prop := {
  k_displ : e_displ e' = e_displ e;
  k_local : e_max_local e' = e_max_local e;
  k_global : e_max_global e' = e_max_global e;
  k_params : e_params e' = e_params e;
  k_len : zlen (e_displs e') = zlen (e_displs e);
  k_mem : mem_size e <= mem_size e';
  k_at : forall id, ~ In id L \/ In id (dflt (e_params e) []) -> displacements_get e' id = displacements_get e id
}.
Lemma keeps_refl L e : keeps L e e.
Proof. constructor; auto. lia. Qed.
Lemma keeps_trans L a b d : keeps L a b -> keeps L b d -> keeps L a d.
Proof.
  intros [A1 A2 A3 A4 A5 A6 A7] [B1 B2 B3 B4 B5 B6 B7]. constructor; try congruence; [lia|]. intros id H. rewrite B7, A7; auto. rewrite A4. exact H.
Qed.
Lemma keeps_incl L L' a b : keeps L a b -> incl L L' -> keeps L' a b.
Proof. intros [A1 A2 A3 A4 A5 A6 A7] I. constructor; auto. intros id [H|H]; apply A7; auto. Qed.
Lemma keeps_plain L e0 e e' : keeps L e0 e -> e_displ e' = e_displ e -> e_max_local e' = e_max_local e -> e_max_global e' = e_max_global e ->
  e_params e' = e_params e -> e_displs e' = e_displs e -> mem_size e <= mem_size e' -> keeps L e0 e'.
Proof.
  intros K A B C D E F. eapply keeps_trans; [exact K|]. constructor; auto; [rewrite E; reflexivity|]. intros id _. unfold displacements_get. rewrite E. reflexivity.
Qed.
Lemma mem_more e v : mem_size e <= mem_size (mem_add e v).
Proof. unfold mem_size. cbn. rewrite zlen_lv_add. lia. Qed.
Lemma keeps_add L e0 e v : keeps L e0 e -> keeps L e0 (mem_add e v).
Proof. intros K. eapply keeps_plain; eauto; try reflexivity. apply mem_more. Qed.
Lemma keeps_reserve L e0 e : keeps L e0 e -> keeps L e0 (mem_reserve e).
Proof. apply keeps_add. Qed.
Lemma keeps_set L e0 e a v : keeps L e0 e -> keeps L e0 (mem_set e a v).
Proof. intros K. eapply keeps_plain; eauto; try reflexivity. unfold mem_size. cbn. rewrite zlen_lv_set. lia. Qed.
Lemma keeps_inc L e0 e n : 0 <= n -> keeps L e0 e -> keeps L e0 (mem_increase e n).
Proof. intros Hn K. eapply keeps_plain; eauto; try reflexivity. unfold mem_size. cbn. rewrite zlen_lv_increase; lia. Qed.
Lemma keeps_error L e0 e : keeps L e0 e -> keeps L e0 (add_error e).
Proof. intros K. eapply keeps_plain; eauto; try reflexivity. Qed.
Lemma keeps_jumps L e0 e a b d : keeps L e0 e -> keeps L e0 (set_jumps e a b d).
Proof. intros K. eapply keeps_plain; eauto; try reflexivity. Qed.
Lemma keeps_tables L e0 e i r x : keeps L e0 e -> keeps L e0 (set_tables e i r x).
Proof. intros K. eapply keeps_plain; eauto; try reflexivity. Qed.
Lemma keeps_proc L e0 e t a : keeps L e0 e -> keeps L e0 (proc_set e t a).
Proof. intros K. eapply keeps_plain; eauto; try reflexivity. Qed.
Lemma chain_len fuel : forall m a s v m', patch_chain fuel m a s v = Some m' -> zlen m' = zlen m.
Proof.
  induction fuel as [|fuel IH]; intros m a s v m'; cbn; destruct (a =? s); try (intros [= <-]; reflexivity); try discriminate.
  intros H. rewrite (IH _ _ _ _ _ H). apply zlen_lv_set.
Qed.
Lemma keeps_patched L e0 e a s v : keeps L e0 e -> keeps L e0 (patched e a s v).
Proof.
  intros K. unfold patched. destruct (patch_chain _ _ _ _ _) eqn:E.
  - eapply keeps_plain; eauto; try reflexivity. unfold mem_size. cbn. rewrite (chain_len _ _ _ _ _ _ E). lia.
  - eapply keeps_plain; eauto; try reflexivity.
Qed.
Lemma keeps_fold {A} L e0 (f : enc -> A -> enc) l : (forall e x, In x l -> keeps L e0 e -> keeps L e0 (f e x)) -> forall e, keeps L e0 e -> keeps L e0 (fold_left f l e).
Proof. induction l as [|x l IH]; intros H e K; cbn; [exact K|]. apply IH; [intros; apply H; [right; assumption|assumption]|]. apply H; [left; reflexivity|exact K]. Qed.
Lemma keeps_words L e0 l e : keeps L e0 e -> keeps L e0 (fold_left mem_add l e).
Proof. intros K. apply keeps_fold; [|exact K]. intros. apply keeps_add. assumption. Qed.
Lemma keeps_double L e0 c e d : keeps L e0 e -> keeps L e0 (mem_add_double c e d).
Proof. apply keeps_words. Qed.
Lemma keeps_ident L e0 c e id : keeps L e0 e -> keeps L e0 (compress_ident c e id).
Proof. intros K. unfold compress_ident. destruct (table_find _ _); [apply keeps_add, K|]. apply keeps_add, keeps_tables, K. Qed.
Lemma keeps_call L e0 e f : In f L -> keeps L e0 e -> keeps L e0 (snd (functions_get e f)).
Proof.
  intros I K. eapply keeps_trans; [exact K|]. unfold functions_get. destruct (existsb _ _) eqn:E; [apply keeps_refl|]. cbn [snd].
  destruct (_ <=? 0); [|apply keeps_refl]. constructor; cbn; try reflexivity; [apply zlen_lv_set|]. intros id H. unfold displacements_get. cbn.
  apply lv_get_set_other. intros ->. destruct H as [H|H]; [auto|]. assert (X : existsb (fun p => p =? id) (dflt (e_params e) []) = true) by (apply existsb_exists; exists id; split; [exact H|lia]). congruence.
Qed.

Create HintDb kp.
#[export] Hint Resolve keeps_add keeps_reserve keeps_set keeps_error keeps_jumps keeps_tables keeps_patched keeps_words keeps_double keeps_ident keeps_proc : kp.
Ltac kp := repeat first [assumption | apply keeps_add | apply keeps_reserve | apply keeps_set | apply keeps_error | apply keeps_jumps | apply keeps_patched
                        | apply keeps_words | apply keeps_double | apply keeps_ident | apply keeps_proc | apply keeps_inc; [lia|] ].

Lemma keeps_load L e0 e v : keeps L e0 e -> keeps L e0 (emit_load_of_lvalue e v).
Proof. intros K. destruct v; cbn; [destruct (is_structure t)|destruct (is_structure t); [|destruct (_ && _)]]; kp. Qed.
Lemma keeps_literal L e0 c e t l : keeps L e0 e -> keeps L e0 (emit_literal c e t l).
Proof.
  intros K. unfold emit_literal. destruct (unqualified t); try (kp; fail).
  - destruct (_ =? _); [kp|]. destruct (_ =? _); [kp|]. destruct (_ || _); [kp|]. destruct (_ =? _); kp.
  - destruct l; try assumption. unfold emit_block. kp.
Qed.
Lemma keeps_void L e0 e : keeps L e0 e -> keeps L e0 (make_void e).
Proof. intros K. unfold make_void. kp. Qed.

Section Code.
Variable c : ctx.

Lemma keeps_emit n : forall L e0 how e, incl (calls n) L -> keeps L e0 e -> keeps L e0 (snd (emit c n how e)).
Proof.
  induction n as [t id|t l|t a b IHa IHb|t f args IH|t l i ar a IHa|t fr a IHa|t l op a IHa|t op a b IHa IHb|t a b d IHa IHb IHd|t op a b IHa IHb|t es IH|] using node_ind';
    intros L e0 how e I K; cbn [calls] in I.
  - destruct how; cbn -[emit_load_of_lvalue]; kp. apply keeps_load; kp.
  - assert (V : keeps L e0 (emit_literal c e t l)) by (apply keeps_literal, K). destruct how; cbn; kp.
  - assert (Ia : incl (calls a) L) by (intros x Hx; apply I, in_or_app; auto). assert (Ib : incl (calls b) L) by (intros x Hx; apply I, in_or_app; auto).
    assert (V : keeps L e0 (mem_add (mem_add (snd (emit c b Value (snd (emit c a Value e)))) IC_SLICE) (size_of t))) by (kp; auto).
    destruct how; cbn [emit is_lvalue snd].
    + apply keeps_load. destruct (is_array t); kp.
    + destruct (is_array t); kp.
    + destruct (is_array t); kp.
  - assert (Ar : forall a e, In a args -> keeps L e0 e -> forall how, keeps L e0 (snd (emit c a how e))).
    { intros a e1 Ha K1 h. rewrite Forall_forall in IH. apply IH; [exact Ha| |exact K1]. intros x Hx. apply I. right. apply in_flat_map. eauto. }
    assert (Arg : forall a e, In a args -> keeps L e0 e -> keeps L e0
      (if is_function (type_of a) then let displ := displacements_get e (get_id a) in mem_add (mem_add e (if 0 <=? displ then IC_LI else IC_LOAD)) (Z.abs displ)
       else match a with
         | NInit _ es =>
             let ints := match es with f :: _ => is_integer (type_of f) | [] => false end in
             let e := mem_add e IC_LI in
             let reserved := mem_size e + 4 in
             let e := mem_increase (mem_add (mem_add e reserved) IC_B) 2 in
             let e := fold_left (emit_argument_literal c ints) es e in
             let e := mem_set e (reserved - 1) (zlen es) in
             mem_set e (reserved - 2) (mem_size e)
         | _ => snd (emit c a Value e)
         end)).
    { intros a e1 Ha K1. destruct (is_function _); cbv zeta; [kp|]. destruct a; try (apply Ar; assumption). apply keeps_set, keeps_set, keeps_fold; [|kp].
      intros e2 x Hx K2. unfold emit_argument_literal. destruct x; try (destruct (is_literal _); kp; fail). destruct (is_literal _); destruct (match es with [] => _ | _ => _ end); kp. }
    assert (V : keeps L e0 (snd (emit c (NCall t f args) Value e))).
    { cbn [emit is_lvalue snd]. destruct (_ =? BI_PRINTF).
      { destruct args as [|fm rest]; [exact K|]. kp. apply Ar; [left; reflexivity|]. apply keeps_fold; [|exact K]. intros e1 x Hx K1. apply Ar; [right; exact Hx|exact K1]. }
      destruct (_ =? BI_PRINT). { apply keeps_fold; [|exact K]. intros e1 x Hx K1. kp. apply Ar; assumption. }
      destruct (_ =? BI_PRINTID). { apply keeps_fold; [|exact K]. intros e1 x Hx K1. kp. }
      destruct (_ =? BI_GETID). { apply keeps_fold; [|exact K]. intros e1 x Hx K1. kp. }
      destruct (BEGIN_USER_FUNC <=? get_id f).
      - set (e1 := fold_left _ args _). assert (K1 : keeps L e0 e1) by (apply keeps_fold; [intros; apply Arg; assumption|kp]).
        pose proof (keeps_call L e0 (mem_add e1 IC_CALL2) (get_id f) (I _ (or_introl eq_refl)) (keeps_add _ _ _ _ K1)) as K2.
        destruct (functions_get _ _) as [dd e2]. kp.
      - kp. apply keeps_fold; [intros; apply Arg; assumption|exact K]. }
    destruct how; [exact V|exact K|]. apply keeps_void, V.
  - assert (V : forall h, keeps L e0 (snd (emit c a h e))) by (intros h; apply IHa; assumption).
    assert (P : keeps L e0 (snd (emit c (NMember t l i ar a) Place e))).
    { cbn [emit]. destruct ar; [cbn; destruct (_ || _); kp; apply V|]. specialize (V Place). destruct (emit c a Place e) as [[ty d|ty] e1]; cbn in V |- *; [exact V|]. destruct (_ || _); kp. }
    destruct how; [|exact P|].
    + cbn [emit] in P |- *. destruct (is_lvalue _); cbn [snd]; [|kp; apply V].
      match goal with |- keeps _ _ (let (v, e) := ?q in _) => destruct q as [v e1] end. apply keeps_load, P.
    + cbn [emit] in P |- *. destruct (is_lvalue _); cbn [snd]; [exact P|]. apply keeps_void. kp. apply V.
  - assert (V : keeps L e0 (if is_integer (type_of a) && is_floating t then mem_add (snd (emit c a Value e)) IC_WIDEN else snd (emit c a Value e))).
    { destruct (_ && _); kp; apply IHa; assumption. }
    destruct how; cbn [emit is_lvalue snd]; [exact V|exact K|apply keeps_void, V].
  - assert (V : forall h e, keeps L e0 e -> keeps L e0 (snd (emit c a h e))) by (intros h e1 K1; apply IHa; assumption).
    assert (P : keeps L e0 (snd (emit c (NUnary t l op a) Place e))).
    { cbn [emit]. pose proof (V Place e K) as W. destruct (emit c a Place e) as [[ty d|ty] e1]; cbn in W |- *; kp. }
    set (val := if is_step op then let (v, e) := emit c a Place e in
        let i := match v with LAddress _ => instruction_to_address_ver (unary_to_instruction op) | _ => unary_to_instruction op end in
        let e := mem_add e (if is_floating t then instruction_to_floating_ver i else i) in match v with LVariable _ displ => mem_add e displ | _ => e end
      else match op with
          | UN_ADDRESS => let (v, e) := emit c a Place e in match v with LVariable _ displ => mem_add (mem_add e IC_LA) displ | _ => e end
          | UN_MINUS => mem_add (snd (emit c a Value e)) (if is_integer t then IC_UNMINUS else IC_UNMINUS_R)
          | UN_NOT => mem_add (snd (emit c a Value e)) IC_NOT
          | UN_LOGNOT => mem_add (snd (emit c a Value e)) IC_LOG_NOT
          | UN_ABS => mem_add (snd (emit c a Value e)) (if is_integer t then IC_ABSI else IC_ABS)
          | UN_UPB => mem_add (snd (emit c a Value (mem_add (mem_add e IC_LI) 0))) IC_UPB
          | _ => e end).
    assert (W : keeps L e0 val).
    { unfold val. pose proof (V Place e K) as W. destruct (is_step op); [destruct (emit c a Place e) as [[ty d|ty] e1]; cbn in W |- *; kp|].
      destruct op; try exact K; try (kp; apply V; kp; fail). destruct (emit c a Place e) as [[ty d|ty] e1]; cbn in W |- *; kp. }
    destruct how; [|exact P|].
    + change (keeps L e0 (if is_lvalue (NUnary t l op a) then let (v, e) := emit c (NUnary t l op a) Place e in emit_load_of_lvalue e v else val)).
      destruct (is_lvalue _); [|exact W]. destruct (emit c _ Place e) as [v e1]. apply keeps_load, P.
    + change (keeps L e0 (if is_lvalue (NUnary t l op a) then snd (emit c (NUnary t l op a) Place e) else make_void val)).
      destruct (is_lvalue _); [exact P|apply keeps_void, W].
  - assert (Ia : incl (calls a) L) by (intros x Hx; apply I, in_or_app; auto). assert (Ib : incl (calls b) L) by (intros x Hx; apply I, in_or_app; auto).
    assert (V : keeps L e0 (snd (emit c (NBinary t op a b) Value e))).
    { cbn [emit is_lvalue snd]. destruct op; try (cbn [is_logical]; cbv zeta; kp; apply IHb; [exact Ib|]; kp; apply IHa; assumption).
    }
    destruct how; [exact V|exact K|apply keeps_void, V].
  - assert (Ia : incl (calls a) L) by (intros x Hx; apply I, in_or_app; auto). assert (Ib : incl (calls b) L) by (intros x Hx; apply I, in_or_app; right; apply in_or_app; auto).
    assert (Id : incl (calls d) L) by (intros x Hx; apply I, in_or_app; right; apply in_or_app; auto).
    assert (V : keeps L e0 (snd (emit c (NTernary t a b d) Value e))).
    { cbn [emit is_lvalue snd]. cbv zeta. kp. apply IHd; [exact Id|]. kp. apply IHb; [exact Ib|]. kp. apply IHa; assumption. }
    destruct how; [exact V|exact K|apply keeps_void, V].
  - assert (Ia : incl (calls a) L) by (intros x Hx; apply I, in_or_app; auto). assert (Ib : incl (calls b) L) by (intros x Hx; apply I, in_or_app; auto).
    assert (V : keeps L e0 (snd (emit c (NAssign t op a b) Value e))).
    { cbn [emit is_lvalue snd]. pose proof (IHa L e0 Place e Ia K) as W. destruct (emit c a Place e) as [v e1]. cbn [snd] in W. pose proof (IHb L e0 Value e1 Ib W) as W2.
      destruct (is_structure t), v; cbv zeta; kp. }
    destruct how; [exact V|exact K|apply keeps_void, V].
  - assert (V : keeps L e0 (snd (emit c (NInit t es) Value e))).
    { cbn [emit is_lvalue snd]. apply keeps_fold; [|destruct (is_array t); kp]. intros e1 x Hx K1. rewrite Forall_forall in IH. apply IH; [exact Hx| |exact K1].
      intros y Hy. apply I. apply in_flat_map. eauto. }
    destruct how; [exact V|exact K|apply keeps_void, V].
  - destruct how; cbn; kp.
Qed.
Lemma keeps_expression n L e0 e : incl (calls n) L -> keeps L e0 e -> keeps L e0 (emit_expression c n e).
Proof. apply keeps_emit. Qed.
Lemma keeps_void_expression n L e0 e : incl (calls n) L -> keeps L e0 e -> keeps L e0 (emit_void_expression c n e).
Proof. apply keeps_emit. Qed.
End Code.

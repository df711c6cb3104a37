(** Proofs: the code emitted for statements, with the jumps that are patched
    later. *)
From Verif Require Import Prelude LVec TypesModel TypesSpec LexModel ParseModel InstrModel BuildModel BuildFold CodeModel VmSpec CodeSpec CodeExpr.

(** ** Emitting an expression changes only the memory *)
Ltac ands := repeat match goal with H : _ && _ = true |- _ => apply andb_prop in H; destruct H end.

Definition kept (e e' : enc) : Prop := e' = set_mem e (e_mem e') /\ mem_size e <= mem_size e'.
Lemma kept_refl e : kept e e.
Proof. split; [symmetry; apply set_mem_same|lia]. Qed.
Lemma kept_trans a b d : kept a b -> kept b d -> kept a d.
Proof. intros [A L] [B M]. split; [|lia]. rewrite B, A. reflexivity. Qed.
Lemma kept_add e e' v : kept e e' -> kept e (mem_add e' v).
Proof.
  intros H. eapply kept_trans; [exact H|]. split; [reflexivity|]. unfold mem_size, mem_add. cbn. unfold lv_add.
  rewrite zlen_app, zlen_cons, zlen_nil. lia.
Qed.
Lemma kept_set e e' i v : kept e e' -> kept e (mem_set e' i v).
Proof. intros H. eapply kept_trans; [exact H|]. split; [reflexivity|]. unfold mem_size, mem_set. cbn. rewrite zlen_lv_set. lia. Qed.
Lemma kept_void e e' : kept e e' -> kept e (make_void e').
Proof. apply kept_set. Qed.
Lemma kept_load e e' v : kept e e' -> kept e (emit_load_of_lvalue e' v).
Proof.
  intros H. destruct v; cbn [emit_load_of_lvalue]; repeat match goal with |- context [if ?b then _ else _] => destruct b end;
  repeat apply kept_add; exact H.
Qed.
Lemma kept_literal c e t l v : lit_value t l = Some v -> kept e (emit_literal c e t l).
Proof.
  intros Q. rewrite <- (set_mem_same e). rewrite (literal_code c e (e_mem e) t l v Q). split; [reflexivity|].
  unfold mem_size. cbn. rewrite zlen_app, !zlen_cons, zlen_nil. lia.
Qed.

Lemma kept_expression c disp n : forall how e, supported c disp n how = true -> kept e (snd (emit c n how e)).
Proof.
  assert (W : forall n, (forall e, supported c disp n Place = true -> kept e (snd (emit c n Place e))) ->
    (forall e, is_lvalue n = false -> supported c disp n Value = true -> kept e (snd (emit c n Value e))) ->
    forall how e, supported c disp n how = true -> kept e (snd (emit c n how e))).
  { clear. intros n P V how e S. destruct (is_lvalue n) eqn:L.
    - destruct how.
      + rewrite supported_value_lvalue in S by exact L. ands. rewrite emit_value_lvalue by exact L. cbn [snd].
        specialize (P e). destruct (emit c n Place e). cbn [snd] in P. apply kept_load. auto.
      + auto.
      + rewrite supported_void_lvalue in S by exact L. ands. rewrite emit_void_lvalue by exact L. cbn [snd]. auto.
    - destruct how; auto. rewrite emit_void_value by exact L. cbn [snd]. apply kept_void. apply V; auto.
      eapply supported_void_value; eauto. }
  induction n; apply W; clear W; intros e; cbn [supported is_lvalue]; try discriminate.
  - intros _. apply kept_refl.
  - intros _. destruct (lit_value t l) eqn:Q; [|discriminate]. intros _. cbn [emit snd is_lvalue]. eapply kept_literal. exact Q.
  - intros S. ands. cbn [emit]. cbv zeta. cbn [snd]. destruct (is_array t);
    repeat apply kept_add; (eapply kept_trans; [apply IHn1|apply IHn2]); assumption.
  - intros S. ands. cbn [emit]. cbv zeta. destruct arrow; ands.
    + destruct (is_array t || is_pointer t); cbn [snd]; repeat apply kept_add; apply IHn; assumption.
    + assert (E : kept e (snd (emit c n Place e))) by (apply IHn; assumption).
      destruct (emit c n Place e) as [v e1]. cbn [snd] in E. destruct v; [exact E|].
      destruct (is_array t || is_pointer t); cbn [snd]; repeat apply kept_add; exact E.
  - intros ->. discriminate.
  - destruct op; try discriminate. intros S. ands. cbn [emit].
    assert (E : kept e (snd (emit c n Place e))) by (apply IHn; assumption).
    destruct (emit c n Place e) as [v e1]. cbn [snd] in E. destruct v; cbn [snd]; repeat apply kept_add; exact E.
  - intros ->. intros S. cbn [emit is_lvalue snd]. destruct (is_step op) eqn:P.
    + ands. assert (E : kept e (snd (emit c n Place e))) by (apply IHn; assumption).
      destruct (emit c n Place e) as [v e1]. cbn [snd] in E. cbv zeta. destruct v; repeat apply kept_add; exact E.
    + destruct op; try discriminate S; ands; try (apply kept_add, IHn; assumption).
      assert (E : kept e (snd (emit c n Place e))) by (apply IHn; assumption).
      destruct (emit c n Place e) as [v e1]. cbn [snd] in E. destruct v; repeat apply kept_add; exact E.
  - intros _. destruct op; cbn [is_plain_operator andb]; try discriminate; intros S; ands; cbn [emit is_lvalue snd is_logical]; cbv zeta;
      repeat first [apply kept_add | apply kept_set]; (eapply kept_trans; [|apply IHn2; assumption]); unfold mem_reserve; repeat apply kept_add; apply IHn1; assumption.
  - intros _ S. ands. cbn [emit is_lvalue snd]. cbv zeta. unfold mem_reserve. apply kept_set.
    eapply kept_trans; [|apply IHn3; assumption]. repeat first [apply kept_add | apply kept_set].
    eapply kept_trans; [|apply IHn2; assumption]. repeat first [apply kept_add | apply kept_set]. apply IHn1. assumption.
  - intros _ S. ands. cbn [emit is_lvalue snd].
    assert (E : kept e (snd (emit c n1 Place e))) by (apply IHn1; assumption).
    destruct (emit c n1 Place e) as [v e1]. cbn [snd] in E. cbv zeta.
    destruct (is_structure t), v; repeat apply kept_add; (eapply kept_trans; [exact E|apply IHn2; assumption]).
Qed.

(** ** Words and holes

    While a loop is open, its jumps form chains through the code: [HB] is a word
    of the chain of [break], [HC] of the chain of [continue]. *)
Inductive tok := W (z : Z) | HB | HC.

(** The words while the chains are open: a hole holds the address of the hole
    before. *)
Fixpoint raw (T : list tok) (p hb hc : Z) : list Z :=
  match T with
  | [] => []
  | W z :: T => z :: raw T (p + 1) hb hc
  | HB :: T => hb :: raw T (p + 1) p hc
  | HC :: T => hc :: raw T (p + 1) hb p
  end.
Fixpoint headB (T : list tok) (p hb : Z) : Z :=
  match T with [] => hb | HB :: T => headB T (p + 1) p | _ :: T => headB T (p + 1) hb end.
Fixpoint headC (T : list tok) (p hc : Z) : Z :=
  match T with [] => hc | HC :: T => headC T (p + 1) p | _ :: T => headC T (p + 1) hc end.
(** The words when the targets are known. *)
Definition fill (B K : Z) (T : list tok) : list Z := map (fun t => match t with W z => z | HB => B | HC => K end) T.
Definition setB (v : Z) (T : list tok) : list tok := map (fun t => match t with HB => W v | t => t end) T.
Definition setC (v : Z) (T : list tok) : list tok := map (fun t => match t with HC => W v | t => t end) T.

Lemma zlen_map {A B} (f : A -> B) l : zlen (map f l) = zlen l.
Proof. rewrite !zlen_unf, map_length. reflexivity. Qed.
Lemma zlen_raw T p hb hc : zlen (raw T p hb hc) = zlen T.
Proof. revert p hb hc. induction T as [|[]]; intros; cbn [raw]; rewrite ?zlen_cons, ?IHT; try reflexivity; rewrite !zlen_unf; reflexivity. Qed.
Lemma raw_app T U p hb hc : raw (T ++ U) p hb hc = raw T p hb hc ++ raw U (p + zlen T) (headB T p hb) (headC T p hc).
Proof.
  revert p hb hc. induction T as [|t T IH]; intros; cbn [raw app headB headC].
  - replace (p + zlen []) with p by (rewrite zlen_unf; cbn; lia). reflexivity.
  - rewrite zlen_cons. replace (p + (1 + zlen T)) with (p + 1 + zlen T) by lia. destruct t; cbn [app]; rewrite IH; reflexivity.
Qed.
Lemma headB_app T U p hb : headB (T ++ U) p hb = headB U (p + zlen T) (headB T p hb).
Proof.
  revert p hb. induction T as [|t T IH]; intros; cbn [app headB].
  - replace (p + zlen []) with p by (rewrite zlen_unf; cbn; lia). reflexivity.
  - rewrite zlen_cons. replace (p + (1 + zlen T)) with (p + 1 + zlen T) by lia. destruct t; rewrite IH; reflexivity.
Qed.
Lemma headC_app T U p hc : headC (T ++ U) p hc = headC U (p + zlen T) (headC T p hc).
Proof.
  revert p hc. induction T as [|t T IH]; intros; cbn [app headC].
  - replace (p + zlen []) with p by (rewrite zlen_unf; cbn; lia). reflexivity.
  - rewrite zlen_cons. replace (p + (1 + zlen T)) with (p + 1 + zlen T) by lia. destruct t; rewrite IH; reflexivity.
Qed.
Lemma raw_W l p hb hc : raw (map W l) p hb hc = l.
Proof. revert p. induction l; intros; cbn; auto. f_equal. auto. Qed.
Lemma headB_W l p hb : headB (map W l) p hb = hb.
Proof. revert p. induction l; intros; cbn; auto. Qed.
Lemma headC_W l p hc : headC (map W l) p hc = hc.
Proof. revert p. induction l; intros; cbn; auto. Qed.
Lemma fill_app B K T U : fill B K (T ++ U) = fill B K T ++ fill B K U.
Proof. apply map_app. Qed.
Lemma fill_W B K l : fill B K (map W l) = l.
Proof. unfold fill. rewrite map_map. apply map_id. Qed.
Lemma zlen_fill B K T : zlen (fill B K T) = zlen T.
Proof. apply zlen_map. Qed.
Lemma headB_setC v T p hb : headB (setC v T) p hb = headB T p hb.
Proof. revert p hb. induction T as [|[]]; intros; cbn; auto. Qed.
Lemma headC_setB v T p hc : headC (setB v T) p hc = headC T p hc.
Proof. revert p hc. induction T as [|[]]; intros; cbn; auto. Qed.
Lemma raw_filled B K T p hb hc : raw (setB B (setC K T)) p hb hc = fill B K T.
Proof. revert p hb hc. induction T as [|[]]; intros; cbn; f_equal; auto. Qed.
Lemma setC_app v T U : setC v (T ++ U) = setC v T ++ setC v U.
Proof. apply map_app. Qed.
Lemma setB_app v T U : setB v (T ++ U) = setB v T ++ setB v U.
Proof. apply map_app. Qed.
Lemma setC_W v l : setC v (map W l) = map W l.
Proof. unfold setC. rewrite map_map. reflexivity. Qed.
Lemma setB_W v l : setB v (map W l) = map W l.
Proof. unfold setB. rewrite map_map. reflexivity. Qed.
Lemma zlen_setB v T : zlen (setB v T) = zlen T.
Proof. apply zlen_map. Qed.
Lemma zlen_setC v T : zlen (setC v T) = zlen T.
Proof. apply zlen_map. Qed.

(** ** Following a chain *)
Definition countB (T : list tok) : nat := length (filter (fun t => match t with HB => true | _ => false end) T).
Definition countC (T : list tok) : nat := length (filter (fun t => match t with HC => true | _ => false end) T).
Lemma count_app (f : tok -> bool) T U : length (filter f (T ++ U)) = (length (filter f T) + length (filter f U))%nat.
Proof. rewrite filter_app, app_length. reflexivity. Qed.
Lemma count_le (f : tok -> bool) T : (length (filter f T) <= length T)%nat.
Proof. induction T as [|t T IH]; cbn; auto. destruct (f t); cbn; lia. Qed.

Lemma chain_B T : forall m r hb hc v stop fuel, stop < zlen m -> (countB T <= fuel)%nat ->
  patch_chain fuel (m ++ raw T (zlen m) hb hc ++ r) (headB T (zlen m) hb) stop v =
  patch_chain (fuel - countB T) (m ++ raw (setB v T) (zlen m) hb hc ++ r) hb stop v.
Proof.
  induction T as [|t T IH] using rev_ind; intros m r hb hc v stop fuel Hs F.
  - cbn. rewrite Nat.sub_0_r. reflexivity.
  - unfold countB in *. rewrite count_app in F. rewrite count_app, setB_app, !raw_app, headB_app, <- !app_assoc. rewrite headC_setB.
    rewrite zlen_setB. replace (setB v [t]) with [match t with HB => W v | t => t end] by reflexivity.
    destruct t; cbn [map raw headB app filter length] in *; rewrite ?Nat.add_0_r in *.
    + apply IH; assumption.
    + destruct fuel as [|fuel]; [lia|]. replace (S fuel - (length (filter (fun t => match t with HB => true | _ => false end) T) + 1))%nat
        with (fuel - length (filter (fun t => match t with HB => true | _ => false end) T))%nat by lia.
      pose proof (zlen_nonneg T). cbn [patch_chain]. replace (zlen m + zlen T =? stop) with false by lia.
      assert (L : zlen m + zlen T = zlen (m ++ raw T (zlen m) hb hc)) by (rewrite zlen_app, zlen_raw; reflexivity).
      rewrite app_assoc. rewrite lv_set_mid, lv_get_mid by exact L. rewrite <- app_assoc. apply IH; lia.
    + apply IH; assumption.
Qed.
Lemma chain_C T : forall m r hb hc v stop fuel, stop < zlen m -> (countC T <= fuel)%nat ->
  patch_chain fuel (m ++ raw T (zlen m) hb hc ++ r) (headC T (zlen m) hc) stop v =
  patch_chain (fuel - countC T) (m ++ raw (setC v T) (zlen m) hb hc ++ r) hc stop v.
Proof.
  induction T as [|t T IH] using rev_ind; intros m r hb hc v stop fuel Hs F.
  - cbn. rewrite Nat.sub_0_r. reflexivity.
  - unfold countC in *. rewrite count_app in F. rewrite count_app, setC_app, !raw_app, headC_app, <- !app_assoc. rewrite headB_setC.
    rewrite zlen_setC. replace (setC v [t]) with [match t with HC => W v | t => t end] by reflexivity.
    destruct t; cbn [map raw headC app filter length] in *; rewrite ?Nat.add_0_r in *.
    + apply IH; assumption.
    + apply IH; assumption.
    + destruct fuel as [|fuel]; [lia|]. replace (S fuel - (length (filter (fun t => match t with HC => true | _ => false end) T) + 1))%nat
        with (fuel - length (filter (fun t => match t with HC => true | _ => false end) T))%nat by lia.
      pose proof (zlen_nonneg T). cbn [patch_chain]. replace (zlen m + zlen T =? stop) with false by lia.
      assert (L : zlen m + zlen T = zlen (m ++ raw T (zlen m) hb hc)) by (rewrite zlen_app, zlen_raw; reflexivity).
      rewrite app_assoc. rewrite lv_set_mid, lv_get_mid by exact L. rewrite <- app_assoc. apply IH; lia.
Qed.
Lemma chain_end fuel m a v : patch_chain fuel m a a v = Some m.
Proof. destruct fuel; cbn; rewrite Z.eqb_refl; reflexivity. Qed.

Lemma patched_B e m T r hb hc v : e_mem e = m ++ raw T (zlen m) hb hc ++ r -> hb < zlen m ->
  patched e (headB T (zlen m) hb) hb v = set_mem e (m ++ raw (setB v T) (zlen m) hb hc ++ r).
Proof.
  intros M S. unfold patched. rewrite M, chain_B, chain_end; auto.
  unfold countB. etransitivity; [apply count_le|]. pose proof (zlen_raw T (zlen m) hb hc) as L. set (x := raw T (zlen m) hb hc) in *. clearbody x. rewrite !app_length. rewrite !zlen_unf in L. lia.
Qed.
Lemma patched_C e m T r hb hc v : e_mem e = m ++ raw T (zlen m) hb hc ++ r -> hc < zlen m ->
  patched e (headC T (zlen m) hc) hc v = set_mem e (m ++ raw (setC v T) (zlen m) hb hc ++ r).
Proof.
  intros M S. unfold patched. rewrite M, chain_C, chain_end; auto.
  unfold countC. etransitivity; [apply count_le|]. pose proof (zlen_raw T (zlen m) hb hc) as L. set (x := raw T (zlen m) hb hc) in *. clearbody x. rewrite !app_length. rewrite !zlen_unf in L. lia.
Qed.

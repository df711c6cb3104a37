(** Proofs about the type table: the records of the table as shapes, the chain
    of records, and what the numbers stand for. *)
From Verif Require Import Prelude LVec TypesModel TypesSpec.

Inductive shape :=
| SPtr (m : Z) | SArr (m : Z) | SCst (m : Z)
| SStr (sz : Z) (ms : list (Z * Z))
| SFun (r : Z) (ps : list Z)
| SEnm (k v : Z) (rest : list Z).

Definition flat (ms : list (Z * Z)) : list Z := flat_map (fun m => [fst m; snd m]) ms.
Definition enc (s : shape) : list Z :=
  match s with
  | SPtr m => [TYPE_POINTER; m]
  | SArr m => [TYPE_ARRAY; m]
  | SCst m => [TYPE_CONST; m]
  | SStr sz ms => TYPE_STRUCTURE :: sz :: zlen ms * 2 :: flat ms
  | SFun r ps => TYPE_FUNCTION :: r :: zlen ps :: ps
  | SEnm _ v rest => TYPE_ENUM :: Z.quot v 2 :: rest
  end.

Lemma zlen_flat ms : zlen (flat ms) = zlen ms * 2.
Proof. induction ms as [|[a b] ms IH]; [reflexivity|]. unfold flat in *. cbn [flat_map app]. rewrite !zlen_cons, IH. lia. Qed.
Lemma flat_inj ms ms' : flat ms = flat ms' -> ms = ms'.
Proof.
  revert ms'. induction ms as [|[a b] ms IH]; intros [|[a' b'] ms'] E; cbn in E; try discriminate; auto.
  injection E as -> -> E. f_equal. auto.
Qed.

(** [e] stands at [n]. *)
Definition at_pos (c : list Z) (n : Z) (e : list Z) : Prop := exists l r, c = l ++ e ++ r /\ zlen l = n.
Lemma at_get c n e i : at_pos c n e -> 0 <= i < zlen e -> lv_get c (n + i) = lv_get e i.
Proof.
  intros (l & r & -> & <-) H. rewrite lv_get_app2 by lia. replace (zlen l + i - zlen l) with i by lia.
  apply lv_get_app1. lia.
Qed.
Lemma at_get0 c n e : at_pos c n e -> 0 < zlen e -> lv_get c n = lv_get e 0.
Proof. intros. rewrite <- (at_get c n e 0); auto; f_equal; lia. Qed.
Lemma at_ext c n e x : at_pos c n e -> at_pos (c ++ x) n e.
Proof. intros (l & r & -> & <-). exists l, (r ++ x). rewrite <- !app_assoc. auto. Qed.
Lemma at_len c n e : at_pos c n e -> 0 <= n /\ n + zlen e <= zlen c.
Proof. intros (l & r & -> & <-). rewrite !zlen_app. pose proof (zlen_nonneg l). pose proof (zlen_nonneg r). lia. Qed.

Lemma enc_pos s : 2 <= zlen (enc s).
Proof.
  destruct s; cbn [enc]; rewrite ?zlen_cons;
  match goal with |- context [zlen ?l] => pose proof (zlen_nonneg l) end; lia.
Qed.

Definition tag (s : shape) : Z :=
  match s with SPtr _ => TYPE_POINTER | SArr _ => TYPE_ARRAY | SCst _ => TYPE_CONST | SStr _ _ => TYPE_STRUCTURE
  | SFun _ _ => TYPE_FUNCTION | SEnm _ _ _ => TYPE_ENUM end.

(** Components. *)
Definition valid (T : list (Z * shape)) (m : Z) : Prop := simple_code m \/ exists s, In (m, s) T.
Definition parts (s : shape) : list Z :=
  match s with SPtr m | SArr m | SCst m => [m] | SStr _ ms => map fst ms | SFun r ps => r :: ps | SEnm _ _ _ => [] end.
Definition wf (T : list (Z * shape)) (s : shape) : Prop :=
  Forall (valid T) (parts s) /\ match s with SEnm _ v _ => is_int64 v | _ => True end.

(** The chain of records, newest first. *)
Fixpoint laid (c : list Z) (start : Z) (T : list (Z * shape)) : Prop :=
  match T with
  | [] => start = 0
  | (n, s) :: T =>
      n = start + 1 /\ 0 < start /\ at_pos c n (enc s)
      /\ Forall (fun e => fst e + zlen (enc (snd e)) <= start) T /\ wf T s
      /\ laid c (lv_get c start) T
  end.

Lemma laid_ext c x start T : laid c start T -> laid (c ++ x) start T.
Proof.
  revert start. induction T as [|[n s] T IH]; cbn; auto. intros start (-> & H & A & B & W & L).
  repeat split; auto using at_ext; try apply W. rewrite lv_get_app1; auto. apply at_len in A. pose proof (enc_pos s). lia.
Qed.

Lemma laid_in c start T n s : laid c start T -> In (n, s) T ->
  at_pos c n (enc s) /\ 1 < n <= start + 1 /\ Forall (fun m => valid T m /\ m < n) (parts s)
  /\ match s with SEnm _ v _ => is_int64 v | _ => True end.
Proof.
  revert start. induction T as [|[n0 s0] T IH]; [contradiction|]. cbn [laid]. intros start (-> & H & A & B & W & L) [E|I].
  - injection E as <- <-. split; auto. split; [lia|]. split; [|apply W]. destruct W as [W _].
    eapply Forall_impl; [|exact W]. intros m [V|[s' V]].
    + split; [left; auto|unfold simple_code in V; lia].
    + split; [right; exists s'; right; auto|]. rewrite Forall_forall in B. apply B in V. cbn in V. pose proof (enc_pos s'). lia.
  - rewrite Forall_forall in B. pose proof (B _ I) as B'. cbn [fst snd] in B'. pose proof (enc_pos s).
    destruct (IH _ L I) as (A' & R & P & Q). split; auto. split; [lia|]. split; auto.
    eapply Forall_impl; [|exact P]. cbn. intros m [[V|[s' V]] ?]; split; auto; [left; auto|right; exists s'; right; auto].
Qed.

Lemma laid_key c start T n s s' : laid c start T -> In (n, s) T -> In (n, s') T -> s = s'.
Proof.
  revert start. induction T as [|[n0 s0] T IH]; [contradiction|]. cbn [laid]. intros start (-> & H & A & B & W & L) I I'.
  rewrite Forall_forall in B.
  destruct I as [E|I], I' as [E'|I'].
  - congruence.
  - injection E as <- <-. apply B in I'. cbn in I'. pose proof (enc_pos s'). lia.
  - injection E' as <- <-. apply B in I. cbn in I. pose proof (enc_pos s). lia.
  - eauto.
Qed.

Lemma shape_tag c start T n s : laid c start T -> In (n, s) T -> lv_get c n = tag s.
Proof.
  intros L I. destruct (laid_in _ _ _ _ _ L I) as (A & _). pose proof (enc_pos s). rewrite (at_get0 _ _ _ A) by lia.
  destruct s; reflexivity.
Qed.
Lemma shape_get1 c start T n s : laid c start T -> In (n, s) T -> lv_get c (n + 1) = lv_get (enc s) 1.
Proof. intros L I. destruct (laid_in _ _ _ _ _ L I) as (A & _). pose proof (enc_pos s). apply at_get; auto. lia. Qed.

(** Constant. *)
Lemma not_const_simple t m : m <= 0 -> type_is_const t m = false.
Proof. intros. unfold type_is_const. replace (m >? 0) with false by lia. reflexivity. Qed.
Lemma is_const_shape t start T n s : laid (ty_cells t) start T -> In (n, s) T ->
  type_is_const t n = match s with SCst _ => true | _ => false end.
Proof.
  intros L I. unfold type_is_const, type_get. rewrite (shape_tag _ _ _ _ _ L I).
  destruct (laid_in _ _ _ _ _ L I) as (_ & R & _). replace (n >? 0) with true by lia. destruct s; reflexivity.
Qed.
Lemma const_get t start T n m : laid (ty_cells t) start T -> In (n, SCst m) T ->
  type_const_get_unqualified_type t n = m.
Proof.
  intros L I. unfold type_const_get_unqualified_type. rewrite (is_const_shape _ _ _ _ _ L I). unfold type_get.
  rewrite (shape_get1 _ _ _ _ _ L I). reflexivity.
Qed.

Definition top (T : list (Z * shape)) (u : Z) : Prop :=
  simple_code u \/ exists s, In (u, s) T /\ forall m, s <> SCst m.
Lemma strip_ok t start T fuel m : laid (ty_cells t) start T -> valid T m -> m <= Z.of_nat fuel ->
  exists u, strip fuel t m = Some u /\ top T u /\ u <= Z.max 0 m.
Proof.
  intros L. revert m. induction fuel as [|fuel IH]; intros m [V|[s V]] F.
  - exists m. cbn [strip]. rewrite not_const_simple by (unfold simple_code in V; lia). split; auto. split; [left; auto|lia].
  - destruct (laid_in _ _ _ _ _ L V) as (_ & R & _). lia.
  - exists m. cbn [strip]. rewrite not_const_simple by (unfold simple_code in V; lia). split; auto. split; [left; auto|lia].
  - destruct (laid_in _ _ _ _ _ L V) as (_ & R & P & _). cbn [strip]. rewrite (is_const_shape _ _ _ _ _ L V).
    destruct s; try (exists m; split; [reflexivity|split; [right; eexists; split; [exact V|discriminate]|lia]]).
    rewrite (const_get _ _ _ _ _ L V). cbn [parts] in P. inversion P as [|? ? [P1 P2] _]; subst.
    destruct (IH m0 P1 ltac:(lia)) as (u & E & Tu & B). exists u. split; auto. split; auto. lia.
Qed.

Lemma laid_bound c start T m : laid c start T -> valid T m -> m < Z.max 1 (zlen c).
Proof.
  intros L [V|[s V]]; [unfold simple_code in V; lia|]. destruct (laid_in _ _ _ _ _ L V) as (A & _).
  apply at_len in A. pose proof (enc_pos s). lia.
Qed.
Lemma zlen_length {A} (l : list A) : Z.of_nat (length l) = zlen l.
Proof. symmetry. apply zlen_unf. Qed.
Lemma unq_ok t start T m : laid (ty_cells t) start T -> valid T m -> exists u, unqualified t m = Some u /\ top T u.
Proof.
  intros L V. destruct (strip_ok t start T (length (ty_cells t)) m L V) as (u & E & Tu & _); eauto.
  rewrite zlen_length. pose proof (laid_bound _ _ _ _ L V). destruct (Z.eq_dec (zlen (ty_cells t)) 0); [|pose proof (zlen_nonneg (ty_cells t)); lia].
  destruct V as [V|[s V]]; [unfold simple_code in V; lia|]. destruct (laid_in _ _ _ _ _ L V) as (A & R & _). apply at_len in A. pose proof (enc_pos s). lia.
Qed.
Lemma strip_more t f f' m u : (f <= f')%nat -> strip f t m = Some u -> strip f' t m = Some u.
Proof.
  revert f' m. induction f as [|f IH]; intros f' m H E; cbn [strip] in E.
  - destruct (type_is_const t m) eqn:C; [discriminate|]. destruct f'; cbn [strip]; rewrite C; auto.
  - destruct f' as [|f']; [lia|]. cbn [strip]. destruct (type_is_const t m) eqn:C; auto. apply IH; auto. lia.
Qed.

(** Strip under an extension of the cells. *)
Lemma strip_ext t t' start T fuel m x : laid (ty_cells t) start T -> ty_cells t' = ty_cells t ++ x -> valid T m ->
  strip fuel t' m = strip fuel t m.
Proof.
  intros L X. assert (L' : laid (ty_cells t') start T) by (rewrite X; apply laid_ext; auto).
  revert m. induction fuel as [|fuel IH]; intros m V.
  - cbn [strip]. destruct V as [V|[s V]].
    + rewrite !not_const_simple by (unfold simple_code in V; lia). auto.
    + rewrite (is_const_shape _ _ _ _ _ L V), (is_const_shape _ _ _ _ _ L' V). auto.
  - cbn [strip]. destruct V as [V|[s V]].
    + rewrite !not_const_simple by (unfold simple_code in V; lia). auto.
    + rewrite (is_const_shape _ _ _ _ _ L V), (is_const_shape _ _ _ _ _ L' V). destruct s; auto.
      rewrite (const_get _ _ _ _ _ L V), (const_get _ _ _ _ _ L' V). apply IH.
      destruct (laid_in _ _ _ _ _ L V) as (_ & _ & P & _). inversion P as [|? ? [P1 P2] _]; auto.
Qed.
Lemma unq_ext t t' start T m x : laid (ty_cells t) start T -> ty_cells t' = ty_cells t ++ x -> valid T m ->
  unqualified t' m = unqualified t m.
Proof.
  intros L X V. destruct (unq_ok _ _ _ _ L V) as (u & E & _). unfold unqualified in *. rewrite E.
  erewrite strip_ext by eauto. eapply strip_more; [|exact E]. rewrite X, app_length. lia.
Qed.
Lemma unq_top t start T u : laid (ty_cells t) start T -> top T u -> unqualified t u = Some u.
Proof.
  intros L [V|(s & V & N)]; unfold unqualified.
  - destruct (length (ty_cells t)); cbn [strip]; rewrite not_const_simple by (unfold simple_code in V; lia); auto.
  - destruct (length (ty_cells t)); cbn [strip]; rewrite (is_const_shape _ _ _ _ _ L V); destruct s; auto; exfalso; eapply N; eauto.
Qed.
Lemma top_valid T u : top T u -> valid T u.
Proof. intros [V|(s & V & _)]; [left; auto|right; eauto]. Qed.

(** The size of a record, by its shape. *)
Definition size1 (c : list Z) (u : Z) : Z :=
  if (u >? 0) && (lv_get c u =? TYPE_STRUCTURE) then lv_get c (u + 1) else if u =? TYPE_FLOATING then 2 else 1.
Lemma type_size_unq t start T m u : laid (ty_cells t) start T -> top T u -> unqualified t m = Some u ->
  type_size t m = Some (size1 (ty_cells t) u).
Proof.
  intros L Tu E. unfold type_size, type_is_structure, type_is_floating, is_class, is_simple, bind. rewrite E.
  rewrite (unq_top _ _ _ _ L Tu). unfold size1, type_get. destruct ((u >? 0) && _); auto.
Qed.
Lemma size1_ext c x start T u : laid c start T -> top T u -> size1 (c ++ x) u = size1 c u.
Proof.
  intros L [V|(s & V & _)]; unfold size1.
  - replace (u >? 0) with false by (unfold simple_code in V; lia). reflexivity.
  - destruct (laid_in _ _ _ _ _ L V) as (A & _). apply at_len in A. pose proof (enc_pos s). rewrite !lv_get_app1 by lia. reflexivity.
Qed.
Lemma type_size_ext t t' start T m x : laid (ty_cells t) start T -> ty_cells t' = ty_cells t ++ x -> valid T m ->
  type_size t' m = type_size t m.
Proof.
  intros L X V. destruct (unq_ok _ _ _ _ L V) as (u & E & Tu).
  assert (L' : laid (ty_cells t') start T) by (rewrite X; apply laid_ext; auto).
  rewrite (type_size_unq t start T m u), (type_size_unq t' start T m u); auto.
  - rewrite X. erewrite size1_ext; eauto.
  - rewrite (unq_ext t t' start T m x); auto.
Qed.
Lemma struct_size_ext t t' start T ms x : laid (ty_cells t) start T -> ty_cells t' = ty_cells t ++ x ->
  Forall (valid T) (map fst ms) -> struct_size t' ms = struct_size t ms.
Proof.
  intros L X. induction ms as [|[m n] ms IH]; cbn; auto. intros F. inversion F; subst.
  rewrite (type_size_ext t t' start T m x), IH; auto.
Qed.
Lemma struct_size_some t start T ms : laid (ty_cells t) start T -> Forall (valid T) (map fst ms) ->
  exists n, struct_size t ms = Some n.
Proof.
  intros L. induction ms as [|[m n] ms IH]; cbn; eauto. intros F. inversion F; subst.
  destruct (unq_ok _ _ _ _ L H1) as (u & E & Tu). rewrite (type_size_unq t start T m u); auto.
  destruct IH as (k & ->); auto. cbn. eauto.
Qed.

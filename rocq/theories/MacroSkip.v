(** Skipping of blocks: it ends, and it passes over well-nested text. *)
From Verif Require Import Prelude MacroModel MacroSpec.
Local Open Scope Z_scope.

(** ** More steps change nothing *)
Lemma skip_mono n :
  (forall params b s st r, skip_block n params b s st = Some r -> skip_block (S n) params b s st = Some r)
  /\ (forall params b sv ro fi s st r,
        skip_loop n params b sv ro fi s st = Some r -> skip_loop (S n) params b sv ro fi s st = Some r)
  /\ (forall params ba kd s st r, skip_inner n params ba kd s st = Some r -> skip_inner (S n) params ba kd s st = Some r).
Proof.
  induction n as [|n [IHb [IHl IHi]]]; [repeat split; intros; discriminate|].
  split; [|split].
  - intros params b s st r H. cbn [skip_block] in H. apply IHl in H. exact H.
  - intros params b sv ro fi s st r H. cbn [skip_loop] in H.
    remember (S n) as m. cbn [skip_loop].
    destruct (parse_directive s) as [kd s1].
    set (st1 := if p_mac st then _ else _) in *.
    assert (O : forall r, match skip_inner n params (ro && fi) kd s1 st1 with
        | None => None
        | Some (s2, eof, st0) =>
            if eof then Some (None, s2, unroot ro (set_out None st0))
            else skip_loop n params b sv ro false s2 st0
        end = Some r -> match skip_inner m params (ro && fi) kd s1 st1 with
        | None => None
        | Some (s2, eof, st0) =>
            if eof then Some (None, s2, unroot ro (set_out None st0))
            else skip_loop m params b sv ro false s2 st0
        end = Some r).
    { intros r0 G. destruct (skip_inner n params (ro && fi) kd s1 st1) as [[[s2 eof] st2]|] eqn:E; [|discriminate].
      subst m. apply IHi in E. rewrite E. destruct eof; [exact G|]. apply IHl. exact G. }
    destruct kd as [k| |]; try (apply O; exact H).
    destruct (closes k); [|apply O; exact H].
    destruct (parse_next (Some b) k); [exact H|].
    destruct (skip_directive s1) as [s2 eof]. destruct eof; [exact H|]. subst m. apply IHl. exact H.
  - intros params ba kd s st r H. cbn [skip_inner] in H.
    remember (S n) as m. cbn [skip_inner].
    set (st1 := if ba then st else _) in *.
    destruct (if p_mac st1 then skip_macro params kd s st1 else (skip_directive s, st1)) as [[s1 eof] st2].
    destruct kd as [k| |]; try exact H.
    destruct (opens k); [|exact H].
    destruct (skip_block n params k s1 st2) as [[[k' s2] st3]|] eqn:E; [|discriminate].
    subst m. apply IHb in E. rewrite E. destruct k'; [|exact H]. apply IHi. exact H.
Qed.
Lemma skip_block_le n m params b s st r :
  skip_block n params b s st = Some r -> (n <= m)%nat -> skip_block m params b s st = Some r.
Proof. intros H L. induction L; [exact H|]. apply (proj1 (skip_mono _)). exact IHL. Qed.
Lemma skip_loop_le n m params b sv ro fi s st r :
  skip_loop n params b sv ro fi s st = Some r -> (n <= m)%nat -> skip_loop m params b sv ro fi s st = Some r.
Proof. intros H L. induction L; [exact H|]. apply (proj1 (proj2 (skip_mono _))). exact IHL. Qed.
Lemma skip_inner_le n m params ba kd s st r :
  skip_inner n params ba kd s st = Some r -> (n <= m)%nat -> skip_inner m params ba kd s st = Some r.
Proof. intros H L. induction L; [exact H|]. apply (proj2 (proj2 (skip_mono _))). exact IHL. Qed.

(** ** Lengths *)
Lemma line_end_le s : (length (line_end s) <= length s)%nat.
Proof. induction s as [|t s IH]; cbn [line_end]; [lia|]. destruct (is_nl t); cbn [length]; lia. Qed.
Lemma skip_directive_le s s' eof :
  skip_directive s = (s', eof) -> (length s' <= length s)%nat /\ (eof = false -> (length s' < length s)%nat) /\ (eof = true -> s' = []).
Proof.
  unfold skip_directive. intros H. pose proof (line_end_le s) as L.
  destruct (line_end s) as [|x l]; injection H as <- <-; cbn [length] in *; repeat split; intros; (lia || congruence || reflexivity).
Qed.
Lemma skip_dir_le s : (length (skip_dir s) <= length s)%nat.
Proof. unfold skip_dir. destruct (skip_directive s) as [s' e] eqn:E. apply skip_directive_le in E. cbn. lia. Qed.
Lemma parse_directive_le s kd s1 :
  parse_directive s = (kd, s1) ->
  (length s1 <= length s)%nat /\ (forall k, kd = Kd k -> (length s1 < length s)%nat).
Proof.
  destruct s as [|t s]; cbn [parse_directive]; intros H; [injection H as <- <-; split; [lia|discriminate]|].
  destruct t; injection H as <- <-; cbn [length]; split; (lia || discriminate || (intros; lia)).
Qed.
Lemma skip_macro_dir params kd s st :
  exists st', skip_macro params kd s st = (skip_directive s, st').
Proof.
  unfold skip_macro. destruct (skip_directive s) as [s' eof].
  destruct kd as [k| |]; [|eexists; reflexivity|].
  - destruct k; try (eexists; reflexivity);
      repeat match goal with |- context [if ?c then _ else _] => destruct c end;
      try (destruct (copy_line _ _ _)); eexists; reflexivity.
  - repeat match goal with |- context [if ?c then _ else _] => destruct c end;
      try (destruct (copy_line _ _ _)); eexists; reflexivity.
Qed.
(** 3-way: what is left is shorter. *)
Lemma skip_short n :
  (forall params b s st k s' st', skip_block n params b s st = Some (k, s', st') ->
     (length s' <= length s)%nat /\ (k <> None -> (length s' < length s)%nat))
  /\ (forall params b sv ro fi s st k s' st', skip_loop n params b sv ro fi s st = Some (k, s', st') ->
     (length s' <= length s)%nat /\ (k <> None -> (length s' < length s)%nat))
  /\ (forall params ba kd s st s' eof st', skip_inner n params ba kd s st = Some (s', eof, st') ->
     (length s' <= length s)%nat /\ (eof = false -> (length s' < length s)%nat)).
Proof.
  induction n as [|n [IHb [IHl IHi]]]; [repeat split; intros; discriminate|].
  split; [|split].
  - intros params b s st k s' st' H. cbn [skip_block] in H. apply IHl in H. exact H.
  - intros params b sv ro fi s st k s' st' H. cbn [skip_loop] in H.
    destruct (parse_directive s) as [kd s1] eqn:P. apply parse_directive_le in P as [P1 P2].
    set (st1 := if p_mac st then _ else _) in *.
    assert (O : match skip_inner n params (ro && fi) kd s1 st1 with
        | None => None
        | Some (s2, eof, st0) =>
            if eof then Some (None, s2, unroot ro (set_out None st0))
            else skip_loop n params b sv ro false s2 st0
        end = Some (k, s', st') -> (length s' <= length s)%nat /\ (k <> None -> (length s' < length s)%nat)).
    { intros G. destruct (skip_inner n params (ro && fi) kd s1 st1) as [[[s2 eof] st2]|] eqn:E; [|discriminate].
      apply IHi in E as [E1 E2]. destruct eof.
      - injection G as <- <- <-. split; [lia|congruence].
      - apply IHl in G as [G1 G2]. specialize (E2 eq_refl). split; [lia|]. intros X. lia. }
    destruct kd as [k0| |]; try (apply O; exact H).
    destruct (closes k0); [|apply O; exact H].
    specialize (P2 _ eq_refl).
    destruct (parse_next (Some b) k0).
    + injection H as <- <- <-. split; lia.
    + destruct (skip_directive s1) as [s2 eof] eqn:D. apply skip_directive_le in D as (D1 & D2 & D3).
      destruct eof.
      * injection H as <- <- <-. split; [lia|congruence].
      * apply IHl in H as [G1 G2]. split; [lia|]. intros X. lia.
  - intros params ba kd s st s' eof st' H. cbn [skip_inner] in H.
    set (st1 := if ba then st else _) in *.
    assert (exists st2, (if p_mac st1 then skip_macro params kd s st1 else (skip_directive s, st1)) = (skip_directive s, st2)) as [st2 E].
    { destruct (p_mac st1); [apply skip_macro_dir|eexists; reflexivity]. }
    rewrite E in H. destruct (skip_directive s) as [s1 eof1] eqn:D. apply skip_directive_le in D as (D1 & D2 & D3).
    destruct kd as [k| |]; try (injection H as <- <- <-; split; [lia|exact D2]).
    destruct (opens k); [|injection H as <- <- <-; split; [lia|exact D2]].
    destruct (skip_block n params k s1 st2) as [[[k' s2] st3]|] eqn:B; [|discriminate].
    apply IHb in B as [B1 B2]. destruct k'.
    + apply IHi in H as [G1 G2]. assert (Some k0 <> None) by discriminate. split; [lia|intros; lia].
    + injection H as <- <- <-. split; [lia|]. intros X. specialize (D2 X). lia.
Qed.

(** ** It ends *)
Lemma skip_ends n :
  (forall params b s st, (3 * length s + 3 <= n)%nat -> skip_block n params b s st <> None)
  /\ (forall params b sv ro fi s st, (3 * length s + 2 <= n)%nat -> skip_loop n params b sv ro fi s st <> None)
  /\ (forall params ba kd s st,
        (match kd with Kd _ => 3 * length s + 4 <= n | _ => 1 <= n end)%nat -> skip_inner n params ba kd s st <> None).
Proof.
  induction n as [|n [IHb [IHl IHi]]].
  { repeat split; intros; try lia. destruct kd; lia. }
  split; [|split].
  - intros params b s st L. cbn [skip_block]. apply IHl. lia.
  - intros params b sv ro fi s st L. cbn [skip_loop].
    destruct (parse_directive s) as [kd s1] eqn:P. apply parse_directive_le in P as [P1 P2].
    set (st1 := if p_mac st then _ else _) in *.
    assert (O : match skip_inner n params (ro && fi) kd s1 st1 with
        | None => None
        | Some (s2, eof, st0) =>
            if eof then Some (None, s2, unroot ro (set_out None st0))
            else skip_loop n params b sv ro false s2 st0
        end <> None).
    { destruct (skip_inner n params (ro && fi) kd s1 st1) as [[[s2 eof] st2]|] eqn:E.
      - apply (proj2 (proj2 (skip_short n))) in E as [E1 E2]. destruct eof; [discriminate|].
        apply IHl. specialize (E2 eq_refl). lia.
      - exfalso. revert E. apply IHi. destruct kd as [k| |]; try lia. specialize (P2 _ eq_refl). lia. }
    destruct kd as [k0| |]; try exact O.
    destruct (closes k0); [|exact O]. specialize (P2 _ eq_refl).
    destruct (parse_next (Some b) k0); [discriminate|].
    destruct (skip_directive s1) as [s2 eof] eqn:D. apply skip_directive_le in D as (D1 & D2 & D3).
    destruct eof; [discriminate|]. apply IHl. lia.
  - intros params ba kd s st L. cbn [skip_inner].
    set (st1 := if ba then st else _) in *.
    assert (exists st2, (if p_mac st1 then skip_macro params kd s st1 else (skip_directive s, st1)) = (skip_directive s, st2)) as [st2 E].
    { destruct (p_mac st1); [apply skip_macro_dir|eexists; reflexivity]. }
    rewrite E. destruct (skip_directive s) as [s1 eof1] eqn:D. apply skip_directive_le in D as (D1 & D2 & D3).
    destruct kd as [k| |]; try discriminate.
    destruct (opens k); [|discriminate].
    destruct (skip_block n params k s1 st2) as [[[k' s2] st3]|] eqn:B.
    + apply (proj1 (skip_short n)) in B as [B1 B2]. destruct k'; [|discriminate].
      apply IHi. assert (Some k0 <> None) by discriminate. lia.
    + exfalso. revert B. apply IHb. lia.
Qed.
Lemma skip_block_ends params b s st : skip_block (skip_fuel s) params b s st <> None.
Proof. apply (proj1 (skip_ends _)). unfold skip_fuel. lia. Qed.
(** With any number of steps which is enough. *)
Lemma skip_block_fuel n params b s st r :
  skip_block n params b s st = Some r -> skip_block (skip_fuel s) params b s st = Some r.
Proof.
  intros H. destruct (skip_block (skip_fuel s) params b s st) as [r'|] eqn:E.
  - apply skip_block_le with (m := Nat.max n (skip_fuel s)) in H; [|lia].
    apply skip_block_le with (m := Nat.max n (skip_fuel s)) in E; [|lia]. congruence.
  - exfalso. revert E. apply skip_block_ends.
Qed.

(** ** Induction over items *)
Definition if_some {A} (P : A -> Prop) (o : option A) : Prop := match o with None => True | Some b => P b end.
Section ItemInd.
Variable P : item -> Prop.
Hypothesis HL : forall l, P (Line l).
Hypothesis HC : forall g body elifs other,
  Forall P body -> Forall (fun eb => Forall P (snd eb)) elifs ->
  if_some (Forall P) other -> P (Cond g body elifs other).
Hypothesis HW : forall e body, Forall P body -> P (Loop e body).
Hypothesis HD : forall h body, Forall P body -> P (Def h body).
Fixpoint item_ind' (i : item) : P i :=
  let all := fix all (l : list item) : Forall P l :=
    match l with [] => Forall_nil _ | x :: l => Forall_cons _ (item_ind' x) (all l) end in
  match i with
  | Line l => HL l
  | Cond g body elifs other =>
      HC g body elifs other (all body)
        ((fix every (l : list (list token * list item)) : Forall (fun eb => Forall P (snd eb)) l :=
            match l with
            | [] => Forall_nil _
            | (e, b) :: l => Forall_cons (P := fun eb => Forall P (snd eb)) (e, b) (all b) (every l)
            end) elifs)
        (match other as o return if_some (Forall P) o with
         | None => Logic.I
         | Some b => all b
         end)
  | Loop e body => HW e body (all body)
  | Def h body => HD h body (all body)
  end.
End ItemInd.

Lemma all_of_Forall {A} (P : A -> Prop) l : all_of P l <-> Forall P l.
Proof.
  induction l as [|x l IH]; cbn; [split; constructor|]. rewrite IH. split.
  - intros [H G]. constructor; assumption.
  - intros H. inversion H; subst. split; assumption.
Qed.

(** ** Well-nested text is passed over *)
Definition silent (st : pst) : Prop := p_mac st = false /\ p_out st = None.
Lemma set_err_same st : set_err (p_err st) st = st.
Proof. destruct st; reflexivity. Qed.
Lemma set_err_set b c st : set_err b (set_err c st) = set_err b st.
Proof. reflexivity. Qed.
Lemma silent_set_err b st : silent st -> silent (set_err b st).
Proof. intros [H G]. split; assumption. Qed.
Lemma print_silent t st : silent st -> print t st = st.
Proof. intros [_ H]. unfold print. rewrite H. reflexivity. Qed.
Lemma line_end_line l rest : one_line l -> line_end (l ++ TNl :: rest) = TNl :: rest.
Proof.
  intros H. induction l as [|t l IH]; [reflexivity|].
  cbn [app line_end]. destruct t; cbn [is_nl]; try (apply IH; intros X; apply H; right; exact X).
  exfalso. apply H. left. reflexivity.
Qed.
Lemma skip_directive_line l rest : one_line l -> skip_directive (l ++ TNl :: rest) = (rest, false).
Proof. intros H. unfold skip_directive. rewrite line_end_line; [reflexivity|exact H]. Qed.
Lemma one_line_tl t l : one_line (t :: l) -> one_line l.
Proof. intros H X. apply H. right. exact X. Qed.

Section Params.
Variable params : list Z.
Lemma inner_silent n ba kd s st : silent st ->
  skip_inner (S n) params ba kd s st =
  let '(s1, eof) := skip_directive s in
  match kd with
  | Kd k =>
      if opens k
      then match skip_block n params k s1 st with
           | None => None
           | Some (None, s2, st) => Some (s2, eof, error_ (negb (p_mac st)) DIRECTIVE_UNTERMINATED st)
           | Some (Some k', s2, st) => skip_inner n params false (Kd k') s2 st
           end
      else Some (s1, eof, st)
  | _ => Some (s1, eof, st)
  end.
Proof.
  intros H. cbn [skip_inner]. rewrite print_silent by exact H.
  replace (if ba then st else st) with st by (destruct ba; reflexivity).
  rewrite (proj1 H). destruct (skip_directive s); reflexivity.
Qed.
Lemma block_silent n b s st : silent st ->
  skip_block (S n) params b s st = skip_loop n params b (p_err st) false true s st.
Proof.
  intros [_ H]. cbn [skip_block]. rewrite H.
  assert (E : (match b with KMacro => negb (p_mac st) && false | _ => false end) = false).
  { destruct b; try reflexivity. apply andb_false_r. }
  rewrite E. reflexivity.
Qed.

(** One thing passed over: the loop goes on with the rest. *)
Definition passed (i : item) : Prop :=
  forall b sv fi rest st r n, silent st ->
  skip_loop n params b sv false false rest (set_err sv st) = Some r ->
  exists m, skip_loop m params b sv false fi (text_of i ++ rest) st = Some r.

Lemma passed_all p : Forall passed p -> forall b sv fi rest st r n, silent st ->
  (forall f, skip_loop n params b sv false f rest st = Some r) ->
  (forall f, skip_loop n params b sv false f rest (set_err sv st) = Some r) ->
  exists m, skip_loop m params b sv false fi (text p ++ rest) st = Some r.
Proof.
  intros F. induction F as [|i p H F IH]; intros b sv fi rest st r n S H1 H2.
  - exists n. apply H1.
  - cbn [text flat_map]. rewrite <- app_assoc.
    destruct (IH b sv false rest (set_err sv st) r n) as [m G]; [apply silent_set_err; exact S|exact H2|exact H2|].
    apply (H b sv fi _ st r m S). exact G.
Qed.
(** A body up to the keyword which ends it. *)
Lemma passed_body p b k rest st : Forall passed p -> silent st -> closes k = true -> parse_next (Some b) k = true ->
  exists n, skip_block n params b (text p ++ TKw k :: rest) st = Some (Some k, rest, st).
Proof.
  intros F S C N.
  destruct (passed_all p F b (p_err st) true (TKw k :: rest) st (Some k, rest, st) 1 S) as [m G].
  - intros f. cbn [skip_loop parse_directive]. rewrite (proj1 S). rewrite C, N. rewrite set_err_same. reflexivity.
  - intros f. cbn [skip_loop parse_directive]. rewrite set_err_same. rewrite (proj1 S). rewrite C, N, set_err_same. reflexivity.
  - exists (Datatypes.S m). rewrite block_silent by exact S. exact G.
Qed.
(** A keyword which opens, its body, and then what follows. *)
Lemma passed_open k h p k' rest st r n ba :
  opens k = true -> one_line h -> Forall passed p -> silent st -> closes k' = true -> parse_next (Some k) k' = true ->
  skip_inner n params false (Kd k') rest st = Some r ->
  exists m, skip_inner m params ba (Kd k) (h ++ TNl :: text p ++ TKw k' :: rest) st = Some r.
Proof.
  intros O H F S C N G.
  destruct (passed_body p k k' rest st F S C N) as [m B].
  exists (Datatypes.S (Nat.max n m)). rewrite inner_silent by exact S.
  rewrite skip_directive_line by exact H. cbv beta iota. rewrite O.
  rewrite (skip_block_le _ (Nat.max n m) _ _ _ _ _ B) by lia.
  apply skip_inner_le with (n := n); [exact G|lia].
Qed.

(** The branches after the first. *)
Definition branches (elifs : list (list token * list item)) (other : option (list item)) : list token :=
  flat_map (fun '(e, b) => TKw KElif :: e ++ [TNl] ++ flat_map text_of b) elifs
  ++ match other with None => [] | Some b => [TKw KElse; TNl] ++ flat_map text_of b end
  ++ [TKw KEndif; TNl].
Lemma passed_branches elifs other rest st :
  silent st ->
  Forall (fun eb => one_line (fst eb) /\ Forall passed (snd eb)) elifs ->
  match other with None => True | Some b => Forall passed b end ->
  exists k s, branches elifs other ++ rest = TKw k :: s /\ goes_on k = true
    /\ forall ba, exists n, skip_inner n params ba (Kd k) s st = Some (rest, false, st).
Proof.
  intros S F O. induction F as [|[e b] elifs [H1 H2] F IH].
  - destruct other as [b|]; unfold branches; cbn [flat_map app].
    + eexists KElse, _. split; [reflexivity|]. split; [reflexivity|]. intros ba.
      rewrite <- app_assoc. cbn [app].
      refine (passed_open KElse [] b KEndif (TNl :: rest) st _ 1 ba eq_refl _ O S eq_refl eq_refl _); [intros []|].
      rewrite inner_silent by exact S. reflexivity.
    + eexists KEndif, _. split; [reflexivity|]. split; [reflexivity|]. intros ba. exists 1%nat.
      rewrite inner_silent by exact S. reflexivity.
  - cbn [fst snd] in *. destruct IH as (k & s & E & G & IH).
    exists KElif. eexists. split; [unfold branches; cbn [flat_map app]; reflexivity|]. split; [reflexivity|].
    intros ba. destruct (IH false) as [n I].
    assert (C : closes k = true /\ parse_next (Some KElif) k = true).
    { destruct k; cbn in *; try discriminate; split; reflexivity. }
    assert (T : ((e ++ [TNl] ++ flat_map text_of b)
       ++ flat_map (fun '(e, b) => TKw KElif :: e ++ [TNl] ++ flat_map text_of b) elifs)
       ++ match other with None => [] | Some b => [TKw KElse; TNl] ++ flat_map text_of b end ++ [TKw KEndif; TNl]
       = e ++ TNl :: text b ++ branches elifs other).
    { unfold branches, text. rewrite <- !app_assoc. reflexivity. }
    change (TKw KElse :: [TNl]) with [TKw KElse; TNl] in *.
    match goal with |- exists n, skip_inner n params ba (Kd KElif) ?X st = _ =>
      replace X with (e ++ TNl :: text b ++ TKw k :: s) end.
    + refine (passed_open KElif e b k s st _ n ba eq_refl H1 H2 S (proj1 C) (proj2 C) I).
    + rewrite <- E. unfold branches, text. rewrite <- !app_assoc. reflexivity.
Qed.

(** An opening directive in the loop. *)
Lemma loop_open n b sv fi k s rest st r :
  opens k = true -> closes k = false -> silent st ->
  skip_inner n params false (Kd k) s (set_err sv st) = Some (rest, false, set_err sv st) ->
  skip_loop n params b sv false false rest (set_err sv st) = Some r ->
  skip_loop (S n) params b sv false fi (TKw k :: s) st = Some r.
Proof.
  intros O C S I L. cbn [skip_loop parse_directive]. rewrite (proj1 S), C. cbn [andb]. rewrite I. exact L.
Qed.

Lemma nested_passed i : nested i -> passed i.
Proof.
  induction i as [l|g body elifs other Fb Fe Fo|e body Fb|h body Fb] using item_ind'; cbn [nested]; intros W.
  - intros b sv fi rest st r n S H. destruct W as [W1 W2]. exists (Datatypes.S (Datatypes.S n)).
    cbn [text_of]. rewrite <- app_assoc. cbn [app].
    assert (K : exists kd s1, parse_directive (l ++ TNl :: rest) = (kd, s1) /\ skip_directive s1 = (rest, false)
              /\ match kd with Kd k => closes k = false /\ opens k = false | _ => True end).
    { destruct l as [|t l]; cbn [app parse_directive].
      - exists Knon, (TNl :: rest). repeat split.
      - assert (D : skip_directive (l ++ TNl :: rest) = (rest, false)) by (apply skip_directive_line; exact (one_line_tl _ _ W1)).
        destruct t; try (eexists Knon, _; split; [reflexivity|]; split; [|exact Logic.I];
          exact (skip_directive_line (_ :: l) rest W1)).
        + exists (Kd k), (l ++ TNl :: rest). split; [reflexivity|]. split; [exact D|].
          destruct k; cbn in W2; try discriminate; split; reflexivity.
        + exists Kerr, (l ++ TNl :: rest). split; [reflexivity|]. split; [exact D|exact Logic.I]. }
    destruct K as (kd & s1 & K1 & K2 & K3).
    remember (Datatypes.S n) as m. cbn [skip_loop]. rewrite K1, (proj1 S). cbn [andb].
    subst m. rewrite inner_silent by (apply silent_set_err; exact S). rewrite K2.
    apply skip_loop_le with (m := Datatypes.S n) in H; [|lia].
    destruct kd as [k| |]; cbv beta iota; [|exact H|exact H].
    destruct K3 as [C O]. rewrite C, O. exact H.
  - destruct W as (Wg & Wb & We & Wo). rewrite all_of_Forall in Wb.
    assert (Pb : Forall passed body).
    { rewrite Forall_forall in *. intros x X. apply Fb; [exact X|]. apply Wb. exact X. }
    assert (Pe : Forall (fun eb => one_line (fst eb) /\ Forall passed (snd eb)) elifs).
    { rewrite all_of_Forall in We. rewrite Forall_forall in *. intros [e b] X. cbn [fst snd].
      specialize (We _ X). cbn in We. destruct We as [We1 We2]. split; [exact We1|].
      rewrite all_of_Forall, Forall_forall in We2. specialize (Fe _ X). cbn in Fe. rewrite Forall_forall in *.
      intros y Y. apply Fe; [exact Y|]. apply We2. exact Y. }
    assert (Po : match other with None => True | Some b => Forall passed b end).
    { destruct other as [b|]; [|exact Logic.I]. rewrite all_of_Forall, Forall_forall in Wo. cbn [if_some] in Fo.
      rewrite Forall_forall in *. intros y Y. apply Fo; [exact Y|]. apply Wo. exact Y. }
    intros b sv fi rest st r n S H.
    destruct (passed_branches elifs other rest (set_err sv st) (silent_set_err _ _ S) Pe Po) as (k & s & E & G & I).
    destruct (I false) as [m I'].
    assert (C : closes k = true) by (destruct k; cbn in G; try discriminate; reflexivity).
    assert (T : exists k0 h, guard_text g = TKw k0 :: h /\ one_line h /\ opens k0 = true /\ closes k0 = false /\ parse_next (Some k0) k = true).
    { destruct g as [e|x|x]; eexists _, _; (split; [reflexivity|]); (split; [try exact Wg; intros [X|[]]; discriminate|]);
        (split; [reflexivity|]); (split; [reflexivity|]); destruct k; cbn in G; try discriminate; reflexivity. }
    destruct T as (k0 & h & T1 & T2 & T3 & T4 & T5).
    destruct (passed_open k0 h body k s (set_err sv st) _ m false T3 T2 Pb (silent_set_err _ _ S) C T5 I') as [m' I2].
    exists (Datatypes.S (Nat.max m' n)).
    match goal with |- skip_loop _ _ _ _ _ _ ?X _ = _ =>
      replace X with (TKw k0 :: h ++ TNl :: text body ++ TKw k :: s) end.
    + apply loop_open with (rest := rest); [exact T3|exact T4|exact S| |].
      * apply skip_inner_le with (n := m'); [exact I2|lia].
      * apply skip_loop_le with (n := n); [exact H|lia].
    + rewrite <- E. cbn [text_of]. rewrite T1. unfold branches, text. cbn [app]. rewrite <- !app_assoc. cbn [app].
      rewrite <- !app_assoc. reflexivity.
  - destruct W as [We Wb]. rewrite all_of_Forall in Wb.
    assert (Pb : Forall passed body).
    { rewrite Forall_forall in *. intros x X. apply Fb; [exact X|]. apply Wb. exact X. }
    intros b sv fi rest st r n S H.
    assert (I : skip_inner 1 params false (Kd KEndw) (TNl :: rest) (set_err sv st) = Some (rest, false, set_err sv st)).
    { rewrite inner_silent by (apply silent_set_err; exact S). reflexivity. }
    destruct (passed_open KWhile e body KEndw (TNl :: rest) (set_err sv st) _ 1 false eq_refl We Pb (silent_set_err _ _ S) eq_refl eq_refl I) as [m' I2].
    exists (Datatypes.S (Nat.max m' n)).
    match goal with |- skip_loop _ _ _ _ _ _ ?X _ = _ =>
      replace X with (TKw KWhile :: e ++ TNl :: text body ++ TKw KEndw :: TNl :: rest) end.
    + apply loop_open with (rest := rest); [reflexivity|reflexivity|exact S| |].
      * apply skip_inner_le with (n := m'); [exact I2|lia].
      * apply skip_loop_le with (n := n); [exact H|lia].
    + cbn [text_of]. unfold text. cbn [app]. rewrite <- !app_assoc. cbn [app]. rewrite <- !app_assoc. reflexivity.
  - destruct W as [We Wb]. rewrite all_of_Forall in Wb.
    assert (Pb : Forall passed body).
    { rewrite Forall_forall in *. intros x X. apply Fb; [exact X|]. apply Wb. exact X. }
    intros b sv fi rest st r n S H.
    assert (I : skip_inner 1 params false (Kd KEndm) (TNl :: rest) (set_err sv st) = Some (rest, false, set_err sv st)).
    { rewrite inner_silent by (apply silent_set_err; exact S). reflexivity. }
    destruct (passed_open KMacro h body KEndm (TNl :: rest) (set_err sv st) _ 1 false eq_refl We Pb (silent_set_err _ _ S) eq_refl eq_refl I) as [m' I2].
    exists (Datatypes.S (Nat.max m' n)).
    match goal with |- skip_loop _ _ _ _ _ _ ?X _ = _ =>
      replace X with (TKw KMacro :: h ++ TNl :: text body ++ TKw KEndm :: TNl :: rest) end.
    + apply loop_open with (rest := rest); [reflexivity|reflexivity|exact S| |].
      * apply skip_inner_le with (n := m'); [exact I2|lia].
      * apply skip_loop_le with (n := n); [exact H|lia].
    + cbn [text_of]. unfold text. cbn [app]. rewrite <- !app_assoc. cbn [app]. rewrite <- !app_assoc. reflexivity.
Qed.
End Params.

(** Definitions of macros by [#macro]. *)
From Verif Require Import Prelude MacroModel MacroSpec MacroSkip MacroProofs MacroNest MacroDefine.
Local Open Scope Z_scope.

Lemma print_is t st : print t st = print_all [t] st.
Proof. reflexivity. Qed.
Lemma print_all_nil st : print_all [] st = st.
Proof. unfold print_all. destruct st as [? ? ? ? ? ? ? o ?]. cbn. destruct o; [rewrite app_nil_r|]; reflexivity. Qed.
Lemma print_all_app a b st : print_all b (print_all a st) = print_all (a ++ b) st.
Proof. unfold print_all. destruct st as [? ? ? ? ? ? ? o ?]. cbn. destruct o; [cbn; rewrite app_assoc|]; reflexivity. Qed.
Lemma mac_print_all a st : p_mac (print_all a st) = p_mac st.
Proof. unfold print_all. destruct (p_out st); reflexivity. Qed.

Section Params.
Variable params : list Z.
Hypothesis ND : NoDup params.

Lemma copy_marked kd l v rest : one_line l ->
  match kd with Kd (KDefine | KSet | KIf | KElif | KWhile | KEval) => True | _ => hash_free l end ->
  Forall2 (marked params match kd with Kd (KIfdef | KIfndef) => true | _ => false end) l v ->
  copy_line params kd (l ++ TNl :: rest) = Some v.
Proof.
  intros O H F. induction F as [|t t' l v M F IH]; [reflexivity|].
  assert (IH' : copy_line params kd (l ++ TNl :: rest) = Some v).
  { apply IH; [exact (one_line_tl _ _ O)|]. destruct kd as [[]| |]; try exact Logic.I; inversion H; assumption. }
  clear IH. cbn [app copy_line]. rewrite IH'.
  assert (N : is_nl t = false) by (destruct t; try reflexivity; exfalso; apply O; left; reflexivity).
  rewrite N.
  assert (HH : match kd with Kd (KDefine | KSet | KIf | KElif | KWhile | KEval) => True | _ => is_hash t = false end).
  { destruct kd as [[]| |]; try exact Logic.I; inversion H; assumption. }
  clear H N O. destruct t; cbn [marked] in M; try (subst t'; reflexivity);
    try (cbn [is_hash] in *; subst t'; destruct kd as [[]| |]; try discriminate HH; reflexivity).
  destruct M as [(i & M & ->)|[M ->]].
  - rewrite (index_nth _ _ _ ND M). destruct kd as [[]| |]; reflexivity.
  - rewrite (index_none _ _ M). reflexivity.
Qed.

(** One line within [#macro]. *)
Lemma macro_line kd l v rest st : one_line l ->
  match kd with
  | Kd k => kept params (TKw k :: l) v
  | Kerr => False
  | Knon => hash_free l /\ Forall2 (marked params false) l v
  end ->
  skip_macro params kd (l ++ TNl :: rest) st = (rest, false, print_all v st).
Proof.
  intros O K. unfold skip_macro. rewrite (skip_directive_line l rest O).
  assert (E : match kd with Kd k => kept params (TKw k :: l) v | Kerr => False | Knon => hash_free l /\ Forall2 (marked params false) l v end) by exact K.
  destruct kd as [k| |]; [|contradiction|].
  - destruct K as (C & H & v' & -> & F).
    assert (CP : copy_line params (Kd k) (l ++ TNl :: rest) = Some v').
    { apply copy_marked; [exact O| |]; destruct k; assumption. }
    rewrite CP.
    assert (W1 : wants_expression (Kd k) && at_end (l ++ TNl :: rest) = false).
    { destruct k; try reflexivity; cbn [complete] in C; destruct l as [|t l]; try congruence; cbn;
        destruct t; try reflexivity; exfalso; apply O; left; reflexivity. }
    assert (W2 : wants_name (Kd k) && negb (name_next (l ++ TNl :: rest)) = false).
    { destruct k; try reflexivity; cbn [complete] in C; destruct C as (n & r & ->); reflexivity. }
    rewrite W1, W2, print_is, print_all_app. cbn [app]. destruct k; try reflexivity; contradiction.
  - destruct K as [H F]. rewrite (copy_marked Knon l v rest O H F). reflexivity.
Qed.

(** What is printed for lines, each after a line break. *)
Definition broken (vs : list (list token)) : list token := flat_map (fun v => TNl :: v) vs.
Definition told (first : bool) (vs : list (list token)) : list token :=
  match vs with
  | [] => []
  | v :: vs => (if first then v else TNl :: v) ++ broken vs
  end.
Lemma told_false vs : told false vs = broken vs.
Proof. destruct vs; reflexivity. Qed.
Lemma broken_app a b : broken (a ++ b) = broken a ++ broken b.
Proof. apply flat_map_app. Qed.
Lemma told_cons b v vs : told b (v :: vs) = told b [v] ++ broken vs.
Proof. cbn. rewrite app_nil_r. reflexivity. Qed.

Definition said (i : item) : Prop :=
  forall vs b sv ro fi rest st r n, p_mac st = true -> Forall2 (kept params) (lines_of i) vs ->
  skip_loop n params b sv ro false rest (print_all (told (ro && fi) vs) st) = Some r ->
  exists m, skip_loop m params b sv ro fi (text_of i ++ rest) st = Some r.

Lemma inner_macro n ba kd l v rest st : p_mac st = true -> one_line l ->
  match kd with
  | Kd k => kept params (TKw k :: l) v
  | Kerr => False
  | Knon => hash_free l /\ Forall2 (marked params false) l v
  end ->
  skip_inner (S n) params ba kd (l ++ TNl :: rest) st =
  let st := print_all (told ba [v]) st in
  match kd with
  | Kd k =>
      if opens k
      then match skip_block n params k rest st with
           | None => None
           | Some (None, s2, st) => Some (s2, false, error_ (negb (p_mac st)) DIRECTIVE_UNTERMINATED st)
           | Some (Some k', s2, st) => skip_inner n params false (Kd k') s2 st
           end
      else Some (rest, false, st)
  | _ => Some (rest, false, st)
  end.
Proof.
  intros M O K. cbn [skip_inner].
  assert (E : (if ba then st else print TNl st) = print_all (if ba then [] else [TNl]) st).
  { destruct ba; [rewrite print_all_nil|]; reflexivity. }
  rewrite E, mac_print_all, M, (macro_line kd l v rest _ O K), print_all_app.
  assert (T : (if ba then [] else [TNl]) ++ v = told ba [v]) by (destruct ba; cbn; rewrite app_nil_r; reflexivity).
  rewrite T. reflexivity.
Qed.

Lemma said_all p : Forall said p -> forall vs b sv ro rest st r n, p_mac st = true ->
  Forall2 (kept params) (flat_map lines_of p) vs ->
  skip_loop n params b sv ro false rest (print_all (broken vs) st) = Some r ->
  exists m, skip_loop m params b sv ro false (text p ++ rest) st = Some r.
Proof.
  intros F. induction F as [|i p H F IH]; intros vs b sv ro rest st r n M K L.
  - inversion K; subst. cbn [broken flat_map] in L. rewrite print_all_nil in L. exists n. exact L.
  - cbn [flat_map] in K. apply Forall2_app_inv_l in K. destruct K as (v1 & v2 & K1 & K2 & ->).
    rewrite broken_app, <- print_all_app in L.
    destruct (IH v2 b sv ro rest (print_all (broken v1) st) r n) as [m G]; [rewrite mac_print_all; exact M|exact K2|exact L|].
    unfold text. cbn [flat_map]. rewrite <- app_assoc. apply (H v1 b sv ro false _ st r m M K1).
    rewrite andb_false_r, told_false. exact G.
Qed.
(** A block within [#macro]. *)
Lemma said_block p b k rest st vs : Forall said p -> p_mac st = true -> closes k = true -> parse_next (Some b) k = true ->
  Forall2 (kept params) (flat_map lines_of p) vs ->
  exists n, skip_block n params b (text p ++ TKw k :: rest) st = Some (Some k, rest, print_all (broken vs) st).
Proof.
  intros F M C N K.
  assert (B : forall m, skip_block (S m) params b (text p ++ TKw k :: rest) st
      = skip_loop m params b (p_err st) false true (text p ++ TKw k :: rest) st).
  { intros m. cbn [skip_block]. rewrite M. cbn [negb andb]. destruct b; reflexivity. }
  assert (Z : forall (f : bool) st', p_mac st' = true -> skip_loop 1 params b (p_err st) false f (TKw k :: rest) st' = Some (Some k, rest, st')).
  { intros f st' M'. cbn [skip_loop parse_directive]. rewrite M', C, N. reflexivity. }
  destruct p as [|i p].
  - inversion K; subst. exists 2%nat. rewrite B. cbn [text flat_map app broken]. rewrite print_all_nil. apply Z. exact M.
  - inversion F as [|? ? Hi Fp]; subst. cbn [flat_map] in K. apply Forall2_app_inv_l in K. destruct K as (v1 & v2 & K1 & K2 & ->).
    destruct (said_all p Fp v2 b (p_err st) false (TKw k :: rest) (print_all (broken v1) st) (Some k, rest, print_all (broken (v1 ++ v2)) st) 1) as [m G].
    + rewrite mac_print_all. exact M.
    + exact K2.
    + rewrite print_all_app, <- broken_app. apply Z. rewrite mac_print_all. exact M.
    + destruct (Hi v1 b (p_err st) false true (text p ++ TKw k :: rest) st (Some k, rest, print_all (broken (v1 ++ v2)) st) m M K1) as [m' G'].
      * cbn [andb]. rewrite told_false. exact G.
      * exists (S m'). rewrite B. unfold text. cbn [flat_map]. rewrite <- app_assoc. exact G'.
Qed.

(** The parts of a block: their keywords, what is on their lines, and the bodies. *)
Notation seg := (kw * list token * list item)%type.
Definition seg_text (s : seg) : list token := let '(k, l, b) := s in TKw k :: l ++ TNl :: text b.
Definition seg_lines (s : seg) : list (list token) := let '(k, l, b) := s in (TKw k :: l) :: flat_map lines_of b.
Fixpoint chain (k : kw) (segs : list seg) (c : kw) : Prop :=
  match segs with
  | [] => closes c = true /\ opens c = false /\ parse_next (Some k) c = true
  | (k', l, b) :: segs => closes k' = true /\ opens k' = true /\ parse_next (Some k) k' = true /\ chain k' segs c
  end.
Lemma said_chain segs c rest : forall k l b ba st vs, p_mac st = true -> opens k = true -> chain k segs c ->
  Forall (fun '(k, l, b) => one_line l /\ Forall said b) ((k, l, b) :: segs) ->
  Forall2 (kept params) (seg_lines (k, l, b) ++ flat_map seg_lines segs ++ [[TKw c]]) vs ->
  exists n, skip_inner n params ba (Kd k) (l ++ TNl :: text b ++ flat_map seg_text segs ++ TKw c :: TNl :: rest) st
    = Some (rest, false, print_all (told ba vs) st).
Proof.
  induction segs as [|[[k' l'] b'] segs IH]; intros k l b ba st vs M O C F K; inversion F as [|? ? F0 F']; subst; cbn beta iota in F0; destruct F0 as [Ol Sb].
  - destruct C as (C1 & C2 & C3). cbn [flat_map app seg_lines] in *. inversion K as [|? v ? vs' Kv Kr]; subst.
    apply Forall2_app_inv_l in Kr. destruct Kr as (vb & vc & Kb & Kc & ->).
    inversion Kc as [|? w ? vn Kw Kn]; subst. inversion Kn; subst.
    destruct (said_block b k c (TNl :: rest) (print_all (told ba [v]) st) vb Sb) as [m B]; [rewrite mac_print_all; exact M|exact C1|exact C3|exact Kb|].
    exists (S (S m)). rewrite (inner_macro _ ba (Kd k) l v _ st M Ol Kv). cbv zeta. rewrite O.
    rewrite (skip_block_le _ (S m) _ _ _ _ _ B) by lia.
    change (TNl :: rest) with ([] ++ TNl :: rest).
    rewrite (inner_macro _ false (Kd c) [] w rest); [|rewrite !mac_print_all; exact M|intros []|exact Kw].
    cbv zeta. rewrite C2, !print_all_app. rewrite (told_cons ba v (vb ++ [w])), broken_app, <- ?app_assoc. reflexivity.
  - destruct C as (C1 & C2 & C3 & C4).
    change (seg_lines (k, l, b) ++ flat_map seg_lines ((k', l', b') :: segs) ++ [[TKw c]])
      with ((TKw k :: l) :: flat_map lines_of b ++ (seg_lines (k', l', b') ++ flat_map seg_lines segs) ++ [[TKw c]]) in K.
    inversion K as [|? v ? vs' Kv Kr]; subst.
    apply Forall2_app_inv_l in Kr. destruct Kr as (vb & vc & Kb & Kc & ->). rewrite <- app_assoc in Kc.
    destruct (said_block b k k' (l' ++ TNl :: text b' ++ flat_map seg_text segs ++ TKw c :: TNl :: rest) (print_all (told ba [v]) st) vb Sb) as [m B];
      [rewrite mac_print_all; exact M|exact C1|exact C3|exact Kb|].
    destruct (IH k' l' b' false (print_all (broken vb) (print_all (told ba [v]) st)) vc) as [n I];
      [rewrite !mac_print_all; exact M|exact C2|exact C4|exact F'|exact Kc|].
    exists (S (Nat.max m n)).
    assert (T : l ++ TNl :: text b ++ flat_map seg_text ((k', l', b') :: segs) ++ TKw c :: TNl :: rest
      = l ++ TNl :: text b ++ TKw k' :: l' ++ TNl :: text b' ++ flat_map seg_text segs ++ TKw c :: TNl :: rest).
    { cbn [flat_map seg_text app]. rewrite <- ?app_assoc. cbn [app]. rewrite <- ?app_assoc. reflexivity. }
    rewrite T, (inner_macro _ ba (Kd k) l v _ st M Ol Kv). cbv zeta. rewrite O.
    rewrite (skip_block_le _ (Nat.max m n) _ _ _ _ _ B) by lia.
    rewrite (skip_inner_le _ (Nat.max m n) _ _ _ _ _ _ I) by lia.
    rewrite !print_all_app, told_false, (told_cons ba v (vb ++ vc)), broken_app. rewrite <- ?app_assoc. reflexivity.
Qed.
(** A block as a thing. *)
Lemma said_blocks k l b segs c : closes k = false -> opens k = true -> chain k segs c ->
  one_line l -> Forall said b -> Forall (fun '(k, l, b) => one_line l /\ Forall said b) segs ->
  forall vs b0 sv ro fi rest st r n, p_mac st = true ->
  Forall2 (kept params) (seg_lines (k, l, b) ++ flat_map seg_lines segs ++ [[TKw c]]) vs ->
  skip_loop n params b0 sv ro false rest (print_all (told (ro && fi) vs) st) = Some r ->
  exists m, skip_loop m params b0 sv ro fi (seg_text (k, l, b) ++ flat_map seg_text segs ++ TKw c :: TNl :: rest) st = Some r.
Proof.
  intros C O H F1 F2 F3 vs b0 sv ro fi rest st r n M K L.
  destruct (said_chain segs c rest k l b (ro && fi) st vs M O H (Forall_cons (k, l, b) (conj F1 F2) F3) K) as [m I].
  exists (S (Nat.max m n)). cbn [seg_text app]. rewrite <- app_assoc. cbn [app].
  cbn [skip_loop parse_directive]. rewrite M, C.
  rewrite (skip_inner_le _ (Nat.max m n) _ _ _ _ _ _ I) by lia.
  apply skip_loop_le with (n := n); [exact L|lia].
Qed.

Lemma nested_said i : nested i -> said i.
Proof.
  induction i as [l|g body elifs other Fb Fe Fo|e body Fb|h body Fb] using item_ind'; cbn [nested]; intros W.
  - intros vs b sv ro fi rest st r n M K L. destruct W as [W1 W2]. cbn [lines_of] in K.
    inversion K as [|? v ? vn Kv Kn]; subst. inversion Kn; subst. exists (S (S n)).
    cbn [text_of]. rewrite <- app_assoc. cbn [app].
    assert (D : exists kd l1, parse_directive (l ++ TNl :: rest) = (kd, l1 ++ TNl :: rest) /\ one_line l1
              /\ match kd with
                 | Kd k => closes k = false /\ opens k = false /\ kept params (TKw k :: l1) v
                 | Kerr => False
                 | Knon => hash_free l1 /\ Forall2 (marked params false) l1 v
                 end).
    { destruct l as [|t l]; [exists Knon, []; repeat split; [exact W1|apply Kv|apply Kv]|].
      destruct t; try (eexists Knon, (_ :: l); split; [reflexivity|]; split; [exact W1|exact Kv]).
      - exists (Kd k), l. split; [reflexivity|]. split; [exact (one_line_tl _ _ W1)|].
        destruct k; cbn in W2; try discriminate W2; (split; [reflexivity|]; split; [reflexivity|exact Kv]).
      - exfalso. destruct Kv as [X _]. inversion X as [|? ? X1 X2]. discriminate X1. }
    destruct D as (kd & l1 & D1 & D2 & D3).
    apply skip_loop_le with (m := S n) in L; [|lia].
    remember (S n) as m. cbn [skip_loop]. rewrite D1, M. subst m.
    destruct kd as [k| |]; [|contradiction|].
    + destruct D3 as (D3 & D4 & D5). rewrite D3. rewrite (inner_macro n (ro && fi) (Kd k) l1 v rest st M D2 D5). cbv zeta. rewrite D4. exact L.
    + rewrite (inner_macro n (ro && fi) Knon l1 v rest st M D2 D3). exact L.
  - destruct W as (Wg & Wb & We & Wo). rewrite all_of_Forall in Wb.
    assert (Pb : Forall said body).
    { rewrite Forall_forall in *. intros x X. apply Fb; [exact X|]. apply Wb. exact X. }
    set (segs := map (fun '(e, b) => (KElif, e, b)) elifs ++ match other with None => [] | Some b => [(KElse, [], b)] end : list seg).
    assert (Ps : Forall (fun '(k, l, b) => one_line l /\ Forall said b) segs).
    { apply Forall_app. split.
      - rewrite all_of_Forall in We. apply Forall_map. rewrite Forall_forall in *. intros [e b] X.
        specialize (We _ X). cbn in We. destruct We as [We1 We2]. split; [exact We1|].
        rewrite all_of_Forall, Forall_forall in We2. specialize (Fe _ X). cbn in Fe. rewrite Forall_forall in *.
        intros y Y. apply Fe; [exact Y|]. apply We2. exact Y.
      - destruct other as [b|]; constructor; [|constructor]. split; [intros []|]. rewrite all_of_Forall, Forall_forall in Wo. cbn [if_some] in Fo.
        rewrite Forall_forall in *. intros y Y. apply Fo; [exact Y|]. apply Wo. exact Y. }
    assert (CH : forall k0, opens_if k0 = true -> chain k0 segs KEndif).
    { unfold segs. clear. induction elifs as [|[e b] elifs IH]; intros k0 H.
      - destruct other; cbn; unfold parse_next; rewrite H; repeat split.
      - cbn [map app chain]. unfold parse_next. rewrite H. split; [reflexivity|]. split; [reflexivity|]. split; [reflexivity|].
        apply IH. reflexivity. }
    assert (TX : flat_map seg_text segs = flat_map (fun '(e, b) => TKw KElif :: e ++ [TNl] ++ flat_map text_of b) elifs
      ++ match other with None => [] | Some b => [TKw KElse; TNl] ++ flat_map text_of b end).
    { unfold segs. rewrite flat_map_app. f_equal.
      - clear. induction elifs as [|[e b] elifs IH]; [reflexivity|]. cbn [map flat_map]. rewrite IH. reflexivity.
      - destruct other; [|reflexivity]. cbn [flat_map seg_text app]. rewrite app_nil_r. reflexivity. }
    assert (LX : flat_map seg_lines segs = flat_map (fun '(e, b) => (TKw KElif :: e) :: flat_map lines_of b) elifs
      ++ match other with None => [] | Some b => [TKw KElse] :: flat_map lines_of b end).
    { unfold segs. rewrite flat_map_app. f_equal.
      - clear. induction elifs as [|[e b] elifs IH]; [reflexivity|]. cbn [map flat_map]. rewrite IH. reflexivity.
      - destruct other; [|reflexivity]. cbn [flat_map seg_lines app]. rewrite app_nil_r. reflexivity. }
    assert (G : exists k0 h, guard_text g = TKw k0 :: h /\ one_line h /\ opens k0 = true /\ closes k0 = false /\ opens_if k0 = true).
    { destruct g as [e|x|x]; eexists _, _; (split; [reflexivity|]); (split; [try exact Wg; intros [X|[]]; discriminate|]); repeat split. }
    destruct G as (k0 & h & G1 & G2 & G3 & G4 & G5).
    intros vs b sv ro fi rest st r n M K L.
    destruct (said_blocks k0 h body segs KEndif G4 G3 (CH k0 G5) G2 Pb Ps vs b sv ro fi rest st r n M) as [m R].
    + rewrite LX, <- app_assoc. cbn [lines_of] in K. rewrite G1 in K. exact K.
    + exact L.
    + exists m. rewrite <- R. f_equal. cbn [text_of]. rewrite TX, G1. cbn [seg_text app]. rewrite <- !app_assoc. cbn [app]. rewrite <- ?app_assoc. reflexivity.
  - destruct W as [We Wb]. rewrite all_of_Forall in Wb.
    assert (Pb : Forall said body).
    { rewrite Forall_forall in *. intros x X. apply Fb; [exact X|]. apply Wb. exact X. }
    intros vs b sv ro fi rest st r n M K L.
    destruct (said_blocks KWhile e body [] KEndw eq_refl eq_refl (conj eq_refl (conj eq_refl eq_refl)) We Pb (Forall_nil _) vs b sv ro fi rest st r n M K L) as [m R].
    exists m. rewrite <- R. f_equal. cbn [text_of flat_map seg_text app]. rewrite <- !app_assoc. cbn [app]. rewrite <- ?app_assoc. reflexivity.
  - destruct W as [We Wb]. rewrite all_of_Forall in Wb.
    assert (Pb : Forall said body).
    { rewrite Forall_forall in *. intros x X. apply Fb; [exact X|]. apply Wb. exact X. }
    intros vs b sv ro fi rest st r n M K L.
    destruct (said_blocks KMacro h body [] KEndm eq_refl eq_refl (conj eq_refl (conj eq_refl eq_refl)) We Pb (Forall_nil _) vs b sv ro fi rest st r n M K L) as [m R].
    exists m. rewrite <- R. f_equal. cbn [text_of flat_map seg_text app]. rewrite <- !app_assoc. cbn [app]. rewrite <- ?app_assoc. reflexivity.
Qed.

Lemma told_joined vs : told true vs = joined vs.
Proof.
  destruct vs as [|v vs]; [reflexivity|]. cbn [told]. revert v. induction vs as [|w vs IH]; intros v.
  - cbn. apply app_nil_r.
  - cbn [broken flat_map app]. change (joined (v :: w :: vs)) with (v ++ TNl :: joined (w :: vs)). rewrite <- IH. reflexivity.
Qed.
Lemma macro_body p vs rest st : all_of nested p -> p_mac st = false -> Forall2 (kept params) (flat_map lines_of p) vs ->
  exists n, skip_block n params KMacro (text p ++ TKw KEndm :: rest) (set_out (Some []) st)
    = Some (Some KEndm, rest, set_out (Some (joined vs)) st).
Proof.
  intros W M K. rewrite all_of_Forall in W.
  assert (F : Forall said p) by (rewrite Forall_forall in *; intros x X; apply nested_said; apply W; exact X).
  set (st0 := set_mac true (set_out (Some []) st)).
  assert (B : forall m s, skip_block (S m) params KMacro s (set_out (Some []) st) = skip_loop m params KMacro (p_err st) true true s st0).
  { intros m s. cbn [skip_block set_out p_mac p_out p_err]. rewrite M. reflexivity. }
  assert (Z : forall (f : bool) x, skip_loop 1 params KMacro (p_err st) true f (TKw KEndm :: rest) (print_all x st0) = Some (Some KEndm, rest, set_out (Some x) st)).
  { intros f x. destruct st. cbn in *. subst. reflexivity. }
  destruct p as [|i p].
  - inversion K; subst. exists 2%nat. rewrite B. cbn [text flat_map app joined].
    rewrite <- (print_all_nil st0). apply Z.
  - inversion F as [|? ? Hi Fp]; subst. cbn [flat_map] in K. apply Forall2_app_inv_l in K. destruct K as (v1 & v2 & K1 & K2 & ->).
    destruct (said_all p Fp v2 KMacro (p_err st) true (TKw KEndm :: rest) (print_all (told true v1) st0) (Some KEndm, rest, set_out (Some (joined (v1 ++ v2))) st) 1) as [m G].
    + rewrite mac_print_all. reflexivity.
    + exact K2.
    + rewrite print_all_app. rewrite Z. do 3 f_equal. rewrite <- told_joined.
      assert (N : v1 <> []) by (inversion K1; subst; [destruct i; discriminate|discriminate]).
      destruct v1 as [|a v1]; [congruence|]. cbn [told app]. rewrite broken_app, app_assoc. reflexivity.
    + destruct (Hi v1 KMacro (p_err st) true true (text p ++ TKw KEndm :: rest) st0 (Some KEndm, rest, set_out (Some (joined (v1 ++ v2))) st) m eq_refl K1 G) as [m' G'].
      exists (S m'). rewrite B. unfold text. cbn [flat_map]. rewrite <- app_assoc. exact G'.
Qed.

Lemma macro_defines n body vs st : all_of nested body -> p_mac st = false -> Forall2 (kept params) (flat_map lines_of body) vs ->
  exists st', defined n (length params, joined vs) st st' /\ def_does (TName n :: header params) body st st'.
Proof.
  intros W M K.
  set (st0 := match find_macro n (p_macros st) with Some _ => st | None => set_macros (set_macro n (O, []) (p_macros st)) st end).
  assert (Q0 : (p_seen st0, p_call st0, p_incl st0, p_quiet st0, p_mac st0, p_err st0, p_out st0)
     = (p_seen st, p_call st, p_incl st, p_quiet st, p_mac st, p_err st, p_out st)) by (unfold st0; destruct (find_macro n (p_macros st)); reflexivity).
  exists (set_macros (set_macro n (length params, joined vs) (p_macros st0)) st0). split.
  - unfold defined. cbn [p_macros set_macros]. split; [|split].
    + rewrite find_set, Z.eqb_refl. reflexivity.
    + intros m NE. rewrite find_set. destruct (m =? n) eqn:Q; [lia|]. unfold st0. destruct (find_macro n (p_macros st)); [reflexivity|].
      cbn [p_macros set_macros]. rewrite find_set, Q. reflexivity.
    + exact Q0.
  - intros rest. unfold parse_macro. cbn [app]. fold st0.
    pose proof (parse_args_header params [] (text body ++ TKw KEndm :: TNl :: rest) ND Logic.I) as A. cbn [written flat_map app] in A.
    rewrite A. assert (S : skip_dir (TNl :: text body ++ TKw KEndm :: TNl :: rest) = text body ++ TKw KEndm :: TNl :: rest) by reflexivity.
    rewrite S. destruct (macro_body body vs (TNl :: rest) st0 W) as [m B]; [injection Q0; congruence|exact K|].
    rewrite (skip_block_fuel _ _ _ _ _ _ B). cbv beta iota zeta. unfold set_out at 1. cbn [p_out].
    reflexivity.
Qed.
End Params.

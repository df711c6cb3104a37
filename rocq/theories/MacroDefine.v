(** Definitions of macros on one line. *)
From Verif Require Import Prelude MacroModel MacroSpec MacroSkip MacroProofs MacroNest.
Local Open Scope Z_scope.

Lemma index_nth params n i : NoDup params -> nth_error params i = Some n -> index_of n params = Some i.
Proof.
  revert i. induction params as [|x params IH]; intros i D E; [destruct i; discriminate|]. inversion D as [|? ? D1 D2]; subst.
  cbn [index_of]. destruct i as [|i].
  - injection E as ->. rewrite Z.eqb_refl. reflexivity.
  - cbn in E. destruct (x =? n) eqn:Q; [|rewrite (IH i D2 E); reflexivity].
    exfalso. apply D1. assert (x = n) by lia. subst. apply nth_error_In in E. exact E.
Qed.
Lemma index_none params n : ~ In n params -> index_of n params = None.
Proof.
  induction params as [|x params IH]; intros H; [reflexivity|]. cbn [index_of]. destruct (x =? n) eqn:Q; [exfalso; apply H; left; lia|].
  rewrite IH; [reflexivity|]. intros X. apply H. right. exact X.
Qed.
Lemma find_removed n m l : find_macro m (remove_macro n l) = if m =? n then None else find_macro m l.
Proof.
  induction l as [|[x v] l IH]; cbn [remove_macro find_macro]; [destruct (m =? n); reflexivity|].
  destruct (x =? n) eqn:Q.
  - rewrite IH. destruct (m =? n) eqn:P; [reflexivity|]. destruct (x =? m) eqn:O; [lia|reflexivity].
  - cbn [find_macro]. rewrite IH. destruct (x =? m) eqn:O; [|reflexivity]. destruct (m =? n) eqn:P; [lia|reflexivity].
Qed.
Lemma find_set n m v l : find_macro m (set_macro n v l) = if m =? n then Some v else find_macro m l.
Proof.
  unfold set_macro. cbn [find_macro]. rewrite find_removed. destruct (n =? m) eqn:Q; destruct (m =? n) eqn:P; try lia; reflexivity.
Qed.

Lemma read_params_all params : forall acc rest, NoDup (acc ++ params) -> params <> [] ->
  read_params (listed (map (fun n => [TName n]) params) ++ TChar 41 :: rest) acc = (Some (acc ++ params), rest).
Proof.
  induction params as [|p params IH]; [congruence|]. intros acc rest D _.
  assert (NI : index_of p acc = None).
  { apply index_none. intros X. apply NoDup_remove_2 in D. apply D. apply in_app_iff. left. exact X. }
  destruct params as [|q params].
  - cbn. rewrite NI. reflexivity.
  - change (listed (map (fun n => [TName n]) (p :: q :: params)))
      with (TName p :: TChar 44 :: listed (map (fun n => [TName n]) (q :: params))).
    cbn [app read_params is_close]. rewrite NI. change (is_comma (TChar 44)) with true. cbv iota.
    rewrite IH; [rewrite <- app_assoc; reflexivity|rewrite <- app_assoc; exact D|discriminate].
Qed.
Lemma parse_args_header params ps rest : NoDup params -> starts_well params ps -> 
  parse_args (header params ++ written ps ++ TNl :: rest) = (Some params, written ps ++ TNl :: rest).
Proof.
  intros D W. destruct params as [|p params].
  - cbn [header app]. destruct ps as [|x ps]; [reflexivity|]. destruct x as [t|n|n]; [|reflexivity|contradiction].
    unfold written. cbn [flat_map piece_text app]. destruct t; try reflexivity. exfalso. apply W. reflexivity.
  - unfold header. cbn [app]. unfold parse_args. rewrite <- app_assoc. cbn [app].
    rewrite read_params_all; [reflexivity|exact D|discriminate].
Qed.

Section Oracles.
Variable files : Z -> option (list token).
Variable stuck : list token -> bool.
Variable calc : list token -> option Z.
Notation lvl := (lvl files stuck calc).

Lemma content_written R params ps v : NoDup params -> Forall2 (stands params) ps v -> forall acc st rest,
  parse_content R params (written ps ++ TNl :: rest) acc st = Ok (Some (acc ++ v), TNl :: rest, st).
Proof.
  intros D F. induction F as [|p t ps v S F IH]; intros acc st rest.
  - cbn. rewrite app_nil_r. reflexivity.
  - unfold written in *. cbn [flat_map]. rewrite <- app_assoc.
    assert (E : (acc ++ [t]) ++ v = acc ++ t :: v) by (rewrite <- app_assoc; reflexivity).
    destruct p as [x|n|n]; cbn [piece_text app]; cbn [stands] in S.
    + destruct x as [| | |n| | | | | | | | | |]; try (destruct S as (S1 & S2 & ->); try discriminate S1; try discriminate S2; cbn [parse_content is_nl is_hash]; rewrite IH, E; reflexivity).
      cbn [parse_content is_nl]. destruct S as [(i & S1 & ->)|[S1 ->]].
      * rewrite (index_nth _ _ _ D S1), IH, E. reflexivity.
      * rewrite (index_none _ _ S1), IH, E. reflexivity.
    + destruct S as (i & S & ->). cbn [parse_content is_nl]. rewrite (index_nth _ _ _ D S), IH, E. reflexivity.
    + destruct S as (i & S & ->). cbn [parse_content is_nl]. rewrite (index_nth _ _ _ D S), IH, E. reflexivity.
Qed.
Lemma define_line k n params ps v st : k = KDefine \/ k = KSet -> NoDup params -> starts_well params ps -> Forall2 (stands params) ps v ->
  exists st', defined n (length params, v) st st' /\ line_does files stuck calc (TKw k :: TName n :: header params ++ written ps) st st'.
Proof.
  intros K D W F.
  set (st0 := match find_macro n (p_macros st) with Some _ => st | None => set_macros (set_macro n (O, []) (p_macros st)) st end).
  exists (set_macros (set_macro n (length params, v) (p_macros st0)) st0). split.
  - unfold defined. cbn [p_macros set_macros]. split; [|split].
    + rewrite find_set, Z.eqb_refl. reflexivity.
    + intros m NE. rewrite find_set. destruct (m =? n) eqn:Q; [lia|]. unfold st0. destruct (find_macro n (p_macros st)); [reflexivity|].
      cbn [p_macros set_macros]. rewrite find_set, Q. reflexivity.
    + unfold st0. destruct (find_macro n (p_macros st)); reflexivity.
  - exists O. intros rest _.
    assert (P : parse_define (lvl O) (TName n :: (header params ++ written ps) ++ TNl :: rest) st
      = Ok (rest, set_macros (set_macro n (length params, v) (p_macros st0)) st0)).
    { unfold parse_define. fold st0. rewrite <- app_assoc, parse_args_header by assumption.
      assert (NP : forall (A : Type) (a : list token -> A) b, match written ps ++ TNl :: rest with TPaste :: s3 => a s3 | _ => b end = b).
      { intros A a b. destruct ps as [|x ps]; [reflexivity|]. inversion F as [|? t ? ? S F']; subst. destruct x as [x|x|x]; [|reflexivity|contradiction].
        unfold written. cbn [flat_map piece_text app]. destruct x; try reflexivity. destruct S as (_ & S & _). discriminate S. }
      rewrite NP, (content_written (lvl O) params ps v D F). cbn [rbind app]. reflexivity. }
    destruct K as [-> | ->]; unfold line_step; cbn [app parse_directive]; exact P.
Qed.
Lemma undef_line n rest0 st : one_line rest0 ->
  exists st', (find_macro n (p_macros st') = None /\ (forall m, m <> n -> find_macro m (p_macros st') = find_macro m (p_macros st))
     /\ p_out st' = p_out st /\ p_err st' = p_err st)
  /\ line_does files stuck calc (TKw KUndef :: TName n :: rest0) st st'.
Proof.
  intros O. exists (set_macros (remove_macro n (p_macros st)) st). split.
  - cbn [p_macros set_macros]. rewrite find_removed, Z.eqb_refl. split; [reflexivity|]. split; [|split; reflexivity].
    intros m NE. rewrite find_removed. destruct (m =? n) eqn:Q; [lia|reflexivity].
  - exists 0%nat. intros rest _. unfold line_step. cbn [app parse_directive]. unfold parse_undef. rewrite skip_dir_line by exact O. reflexivity.
Qed.
End Oracles.

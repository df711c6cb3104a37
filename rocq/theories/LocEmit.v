(** Proofs for C70: the marks printed. *)
From Verif Require Import Prelude CodeModel ExportSpec ExportProofs Utf8Model Utf8Spec Utf8Proofs UniioModel UniioProofs LocModel LocSpec LocProofs.
Import String.StringSyntax.
Local Open Scope Z_scope.
Local Open Scope string_scope.
Local Open Scope list_scope.

(** ** Lines with labels *)
Notation tline := (line * list label)%type.
Fixpoint chars (cs : list Z) (ts : list label) : out :=
  match cs, ts with c :: cs, t :: ts => put t c ++ chars cs ts | _, _ => [] end.
Definition expand (tl : tline) : out := match fst tl with Code cs => chars cs (snd tl) | l => bare (line_text l) end.
Definition fits (tl : tline) : Prop := match fst tl with Code cs => List.length cs = List.length (snd tl) | _ => snd tl = [] end.
Definition whole (tls : list tline) : out := flat_map (fun tl => expand tl ++ bare [10]) tls.
Definition more (tls : list tline) : out := flat_map (fun tl => bare [10] ++ expand tl) tls.
Lemma whole_more tl tls : expand tl ++ more tls ++ bare [10] = whole (tl :: tls).
Proof.
  revert tl. induction tls as [|t tls IH]; intros tl; cbn [more whole flat_map app]; [rewrite app_nil_r; reflexivity|]. fold (more tls). fold (whole tls).
  rewrite <- !app_assoc. f_equal. f_equal. rewrite IH. cbn [whole flat_map]. rewrite <- app_assoc. reflexivity.
Qed.
Lemma whole_app a b : whole (a ++ b) = whole a ++ whole b.
Proof. apply flat_map_app. Qed.
Lemma more_app a b : more (a ++ b) = more a ++ more b.
Proof. apply flat_map_app. Qed.
Lemma chars_app a : forall ta b tb, List.length a = List.length ta -> chars (a ++ b) (ta ++ tb) = chars a ta ++ chars b tb.
Proof. induction a as [|c a IH]; intros [|t ta] b tb L; try discriminate; [reflexivity|]. cbn [app chars]. rewrite IH by (cbn in L; lia). apply app_assoc. Qed.
Lemma chars_repeat t cs : chars cs (repeat t (List.length cs)) = flat_map (put t) cs.
Proof. induction cs as [|c cs IH]; [reflexivity|]. cbn. rewrite IH. reflexivity. Qed.
Fixpoint tags (l k : Z) (cs : list Z) : list label := match cs with [] => [] | _ :: cs => Some (l, k) :: tags l (k + 1) cs end.
Lemma tags_length cs : forall l k, List.length (tags l k cs) = List.length cs.
Proof. induction cs as [|c cs IH]; intros; cbn; [reflexivity|]. f_equal. apply IH. Qed.
Lemma chars_tags cs : forall l k, chars cs (tags l k cs) = copy l k cs.
Proof. induction cs as [|c cs IH]; intros; cbn; [reflexivity|]. rewrite IH. reflexivity. Qed.
Lemma tags_nth cs : forall l k j x y, nth_error (tags l k cs) j = Some (Some (x, y)) -> x = l /\ y = k + Z.of_nat j.
Proof.
  induction cs as [|c cs IH]; intros l k [|j] x y H; cbn in H; try discriminate; [inversion H; lia|]. apply IH in H. lia.
Qed.
Lemma put_plain t c : plain_char c -> exists b bs, enc c = b :: bs /\ put t c = (b, t) :: bare bs.
Proof. intros [E _]. destruct (enc_cons c) as (b & bs & Q). exists b, bs. split; [exact Q|]. unfold put. rewrite to_string_ok by exact E. rewrite Q. reflexivity. Qed.
Lemma bare_fst bs : map fst (bare bs) = bs.
Proof. unfold bare. rewrite map_map. apply map_id. Qed.
Lemma chars_fst cs : forall ts, Forall plain_char cs -> List.length cs = List.length ts -> map fst (chars cs ts) = encs cs.
Proof.
  induction cs as [|c cs IH]; intros [|t ts] F L; try discriminate; [reflexivity|]. inversion F as [|? ? C F']; subst. cbn [chars encs flat_map]. fold (encs cs).
  destruct (put_plain t c C) as (b & bs & E & P). rewrite P, map_app, IH by (auto; cbn in L; lia). cbn [map fst]. rewrite bare_fst, E. reflexivity.
Qed.
Lemma whole_fst tls : Forall (fun tl => proper (fst tl) /\ fits tl) tls -> map fst (whole tls) = above (map fst tls).
Proof.
  induction 1 as [|[l ts] tls [P F] _ IH]; [reflexivity|]. cbn [whole above flat_map map fst]. fold (whole tls). fold (above (map fst tls)). rewrite !map_app, IH, bare_fst. f_equal. f_equal.
  destruct l; cbn [expand fst snd line_text] in *; try apply bare_fst. apply chars_fst; [apply P|exact F].
Qed.

(** A labelled byte is the first of a labelled character. *)
Lemma app_split {A} (x y a b : list A) c : x ++ y = a ++ c :: b ->
  (exists r, x = a ++ c :: r /\ b = r ++ y) \/ (exists r, a = x ++ r /\ y = r ++ c :: b).
Proof.
  revert a. induction x as [|u x IH]; intros a E; cbn [app] in E; [right; exists a; auto|].
  destruct a as [|v a]; cbn [app] in E; [inversion E; subst; left; exists x; auto|]. injection E as -> E. destruct (IH a E) as [(r & -> & ->)|(r & -> & ->)]; [left|right]; exists r; auto.
Qed.
Lemma bare_none bs a b x t : bare bs = a ++ (b, Some t) :: x -> False.
Proof. revert a. induction bs as [|y bs IH]; intros [|z a] E; cbn in E; try discriminate. injection E as _ E. eapply IH; eauto. Qed.
Lemma find_char cs : forall ts a b t x, Forall plain_char cs -> List.length cs = List.length ts -> chars cs ts = a ++ (b, Some t) :: x ->
  exists j, nth_error ts j = Some (Some t) /\ (j < List.length cs)%nat /\ map fst a = encs (firstn j cs).
Proof.
  induction cs as [|c cs IH]; intros [|t0 ts] a b t x F L E; try discriminate; [destruct a; discriminate|].
  inversion F as [|? ? C F']; subst. cbn [chars] in E. destruct (put_plain t0 c C) as (b0 & bs & Ec & P). rewrite P in E.
  destruct a as [|u a]; cbn [app] in E; [inversion E; subst; exists 0%nat; cbn; repeat split; lia|].
  injection E as <- E. apply app_split in E as [(r & E1 & _)|(r & -> & E2)]; [destruct (bare_none _ _ _ _ _ E1)|].
  destruct (IH ts r b t x F' ltac:(cbn in L; lia) E2) as (j & J1 & J2 & J3). exists (S j). cbn [nth_error firstn encs flat_map List.length]. fold (encs (firstn j cs)).
  split; [exact J1|split; [lia|]]. cbn [map fst]. rewrite map_app, bare_fst, Ec.  rewrite J3. reflexivity.
Qed.
Lemma find_line tls : forall a b t x, Forall (fun tl => proper (fst tl) /\ fits tl) tls -> whole tls = a ++ (b, Some t) :: x ->
  exists t1 cur ts t2 j, tls = t1 ++ (Code cur, ts) :: t2 /\ nth_error ts j = Some (Some t) /\ (j < List.length cur)%nat /\ map fst a = above (map fst t1) ++ encs (firstn j cur).
Proof.
  induction tls as [|[l ts] tls IH]; intros a b t x F E; [destruct a; discriminate|]. inversion F as [|? ? [P Q] F']; subst. cbn [whole flat_map] in E. fold (whole tls) in E.
  rewrite <- app_assoc in E. apply app_split in E as [(r & E & _)|(r & -> & E)].
  - destruct l as [cs|k p|k p c|k]; cbn [expand fst snd] in E; try (destruct (bare_none _ _ _ _ _ E)).
    destruct (find_char cs ts a b t r (proj1 P) Q E) as (j & J1 & J2 & J3). exists [], cs, ts, tls, j. auto.
  - destruct r as [|u r]; [discriminate|]. cbn [bare map app] in E. injection E as <- E.
    destruct (IH r b t x F' E) as (t1 & cur & ts1 & t2 & j & -> & J1 & J2 & J3).
    exists ((l, ts) :: t1), cur, ts1, t2, j. split; [reflexivity|split; [exact J1|split; [exact J2|]]].
    rewrite map_app. cbn [map fst above flat_map]. fold (above (map fst t1)).  rewrite J3. cbn [app].
    assert (X : map fst (expand (l, ts)) = line_text l).
    { destruct l; cbn [expand fst snd line_text] in *; try apply bare_fst. apply chars_fst; [apply P|exact Q]. }
    rewrite X, <- !app_assoc. reflexivity.
Qed.

(** ** The locator in a file without marks *)
Definition codes (ls : list (list Z)) : list line := map Code ls.
Lemma walk_codes ls : forall f n, walk (Plain f n) (codes ls) = Some (Plain f (n + zlen ls)).
Proof.
  induction ls as [|c ls IH]; intros f n; cbn [codes map walk bind step]; [rewrite zlen_nil, Z.add_0_r; reflexivity|]. fold (codes ls).
  rewrite IH, zlen_cons. f_equal. f_equal. lia.
Qed.
Lemma codes_split ls0 ls1 : forall ls, codes ls = ls0 ++ ls1 -> exists a b, ls = a ++ b /\ ls0 = codes a /\ ls1 = codes b.
Proof. intros ls E. apply map_eq_app in E as (a & b & -> & <- & <-). eauto. Qed.

Section Source.
  Variables (path : list Z) (Lb : list (list Z)) (L : list Z) (La : list (list Z)).
  Hypothesis path_plain : Forall plain_char path.
  Hypothesis path_some : path <> [].
  Hypothesis all_proper : Forall (fun cs => proper (Code cs)) (Lb ++ L :: La).
  Let d : bytes := text (codes (Lb ++ L :: La)).
  Hypothesis d_small : zlen d < SIZE_MAX.
  Let l : Z := 1 + zlen Lb.
  Let own : bytes := encs path.
  Definition here (loc : location) : Prop := exists s, loc = mkLoc SIZE_MAX (zlen (above (codes Lb))) l s.

  Lemma d_split : codes (Lb ++ L :: La) = codes Lb ++ Code L :: codes La.
  Proof. unfold codes. rewrite map_app. reflexivity. Qed.
  Lemma here_anchored loc : here loc -> anchored d (codes Lb) loc.
  Proof.
    intros [s ->] ls0 ls1 E C N. cbn [l_code] in C. apply codes_split in E as (a & b & E & -> & ->).
    assert (codes a = codes Lb) as EQ.
    { apply (above_inj _ _ (codes b) []); [|auto]. rewrite app_nil_r, E. unfold codes. symmetry. apply map_app. }
    rewrite EQ. eexists. split; [apply walk_codes|]. cbn. unfold l. auto.
  Qed.
  Lemma src_search loc j : here loc -> (j <= List.length L)%nat ->
    loc_search_from (mkIn d (zlen (above (codes Lb) ++ encs (firstn j L)))) loc = Some (mkLoc SIZE_MAX (zlen (above (codes Lb))) l (1 + Z.of_nat j)).
  Proof.
    intros H J. pose proof (here_anchored loc H) as A. unfold d in *. rewrite d_split in *.
    destruct (search_raw (codes Lb) L (codes La) j (Plain None (1 + zlen Lb)) loc) as (r & R & O); auto.
    - rewrite <- d_split. unfold codes. rewrite Forall_map. exact all_proper.
    - apply walk_codes.
    - rewrite R. f_equal. assert (Q : answers (text (codes Lb ++ Code L :: codes La)) (codes Lb) L j None (Plain None (1 + zlen Lb)) r) by (destruct La; exact O).
      cbn [answers found_at l_symbol] in Q. destruct Q as (Q1 & Q2 & Q3 & Q4). cbn in Q1. destruct r. cbn in *. subst. rewrite Z.add_0_r. reflexivity.
  Qed.

  Definition padc (n : nat) : list Z := map (fun c => if c =? 9 then 9 else 32) (firstn n L).
  Lemma pad_loop_at n : forall cs pre rest, Forall plain_char cs -> (n <= List.length cs)%nat ->
    pad_loop n (at_ pre (encs cs ++ rest)) = map (fun c => if c =? 9 then 9 else 32) (firstn n cs).
  Proof.
    clear. induction n as [|n IH]; intros cs pre rest F N; [reflexivity|]. destruct cs as [|c cs]; [cbn in N; lia|]. inversion F as [|? ? C F']; subst.
    cbn [pad_loop encs flat_map firstn map]. fold (encs cs). rewrite <- app_assoc, char_at by (apply plain_point, C). f_equal. apply IH; auto. cbn in N. lia.
  Qed.
  Lemma L_plain : Forall plain_char L.
  Proof. apply Forall_app in all_proper as [_ F]. inversion F as [|? ? P _]. apply P. Qed.
  Lemma d_at : d = above (codes Lb) ++ encs L ++ below (codes La).
  Proof. unfold d. rewrite d_split, text_app, text_cons. reflexivity. Qed.
  Lemma pad_at j : (j <= List.length L)%nat -> pad d (mkLoc SIZE_MAX (zlen (above (codes Lb))) l (1 + Z.of_nat j)) = padc j.
  Proof.
    intros J. unfold pad. cbn [l_symbol l_code]. unfold FIRST_SYMBOL. replace (Z.to_nat (1 + Z.of_nat j - 1)) with j by lia.
    rewrite d_at. apply (pad_loop_at j L (above (codes Lb)) (below (codes La)) L_plain J).
  Qed.
  Lemma own_path k s : loc_get_path own d (mkLoc SIZE_MAX k l s) = Some own.
  Proof. reflexivity. Qed.
  Lemma own_some : own <> [].
  Proof. unfold own. destruct path as [|c p]; [congruence|]. cbn. destruct (enc_cons c) as (b & r & ->). discriminate. Qed.
  Lemma own_line k s : k = zlen (above (codes Lb)) -> loc_get_code_line d (mkLoc SIZE_MAX k l s) = Some (encs L).
  Proof.
    intros ->. apply get_line. exists (above (codes Lb)), (below (codes La)). split; [apply d_at|split; [apply ends_below|split; [reflexivity|apply L_plain]]].
  Qed.
  Lemma update_at loc : here loc -> exists loc', here loc' /\
    loc_update own (mkIn d (zlen (above (codes Lb)))) loc = Some (line_text (Usual l path) ++ [10], loc').
  Proof.
    intros H. pose proof (src_search loc 0 H ltac:(lia)) as S. cbn [firstn encs flat_map] in S. rewrite app_nil_r in S. unfold loc_update. rewrite S. cbn [bind in_data].
    rewrite own_path. cbn [bind l_line]. rewrite pad_at by lia. eexists. split; [eexists; reflexivity|]. pose proof own_some. destruct own eqn:O; [congruence|]. f_equal. f_equal. rewrite <- O.
    cbn [line_text]. unfold head, quoted. rewrite <- !app_assoc. unfold padc. cbn. reflexivity.
  Qed.
  Lemma update_begin_at loc j : here loc -> (j <= List.length L)%nat -> exists loc', here loc' /\
    loc_update_begin own (mkIn d (zlen (above (codes Lb) ++ encs (firstn j L)))) loc = Some (line_text (Begin l path L) ++ [10] ++ padc j, loc').
  Proof.
    intros H J. unfold loc_update_begin. rewrite src_search by auto. cbn [bind in_data].
    rewrite own_path, own_line by reflexivity. cbn [bind l_line]. rewrite pad_at by lia. eexists. split; [eexists; reflexivity|]. pose proof own_some. destruct own eqn:O; [congruence|]. f_equal. f_equal. rewrite <- O.
    cbn [line_text]. unfold head, quoted. rewrite <- !app_assoc. reflexivity.
  Qed.
  Lemma update_end_at loc j : here loc -> (j <= List.length L)%nat -> exists loc', here loc' /\
    loc_update_end own (mkIn d (zlen (above (codes Lb) ++ encs (firstn j L)))) loc = Some (line_text (End l) ++ [10] ++ padc j, loc').
  Proof.
    intros H J. unfold loc_update_end. rewrite src_search by auto. cbn [bind in_data].
    rewrite own_path. cbn [bind l_line]. rewrite pad_at by lia. eexists. split; [eexists; reflexivity|]. pose proof own_some. destruct own eqn:O; [congruence|]. f_equal.
  Qed.

  (** ** What a line of the file becomes *)
  Definition call_tag (k : Z) : label := Some (l, k).
  Fixpoint repl_lines (k : Z) (pre : list Z) (lines : list (list Z)) (blanks : list Z) : list tline :=
    match lines with
    | [] => []
    | [r] => [(Code (pre ++ r ++ blanks), repeat None (List.length pre) ++ repeat (call_tag k) (List.length r) ++ repeat None (List.length blanks))]
    | r :: lines => (Code (pre ++ r), repeat None (List.length pre) ++ repeat (call_tag k) (List.length r)) :: repl_lines k [] lines blanks
    end.
  Fixpoint lines_calls (j : nat) (calls : list call) : list tline * bool :=
    match calls with
    | [] => ([], false)
    | mkCall name lines after :: calls =>
        let (blanks, after) := skip_blanks after in
        let rl := (Begin l path L, []) :: repl_lines (1 + Z.of_nat j) (padc j) lines blanks in
        match after, calls with
        | [], [] => (rl, true)
        | _, _ =>
            let j := (j + List.length name + List.length blanks)%nat in
            let (r, required) := lines_calls (j + List.length after) calls in
            (rl ++ (End l, []) :: (Code (padc j ++ after), repeat None j ++ tags l (1 + Z.of_nat j) after) :: r, required)
        end
    end.

  Definition blanks_only (cs : list Z) : Prop := Forall (fun c => c = 9 \/ c = 32) cs.
  Lemma padc_blanks j : blanks_only (padc j).
  Proof. unfold padc, blanks_only. rewrite Forall_map. apply Forall_forall. intros c _. destruct (c =? 9); auto. Qed.
  Lemma padc_length j : (j <= List.length L)%nat -> List.length (padc j) = j.
  Proof. intros J. unfold padc. rewrite map_length, firstn_length. lia. Qed.
  Lemma put_blanks cs : blanks_only cs -> flat_map (put None) cs = bare cs.
  Proof. clear. induction 1 as [|c cs C _ IH]; [reflexivity|]. cbn [flat_map bare map]. rewrite IH. destruct C as [-> | ->]; reflexivity. Qed.
  Lemma chars_pad pre rest ts : blanks_only pre -> chars (pre ++ rest) (repeat None (List.length pre) ++ ts) = bare pre ++ chars rest ts.
  Proof. intros B. rewrite chars_app by (rewrite repeat_length; reflexivity). rewrite chars_repeat, put_blanks by exact B. reflexivity. Qed.
  Lemma more_repl k blanks lines : forall pre, lines <> [] -> blanks_only pre ->
    more (repl_lines k pre lines blanks) = bare [10] ++ bare pre ++ replacement l k lines ++ flat_map (put None) blanks.
  Proof.
    induction lines as [|r lines IH]; intros pre N B; [congruence|]. destruct lines as [|r2 lines].
    - cbn [repl_lines more flat_map replacement]. rewrite app_nil_r. f_equal. unfold expand. cbn [fst snd]. rewrite chars_pad by exact B. f_equal.
      rewrite chars_app by (rewrite repeat_length; reflexivity). rewrite !chars_repeat. reflexivity.
    - cbn [repl_lines more flat_map replacement]. change (flat_map (fun tl => bare [10] ++ expand tl) ?x) with (more x).
      specialize (IH [] ltac:(discriminate) ltac:(constructor)). cbn [repl_lines] in IH. rewrite IH. unfold expand. cbn [fst snd]. rewrite chars_pad by exact B. rewrite chars_repeat.
      rewrite <- !app_assoc. reflexivity.
  Qed.
  Lemma size_encs cs : Forall code_point cs -> size cs = zlen (encs cs).
  Proof. clear. induction 1 as [|c cs C _ IH]; [reflexivity|]. cbn [size fold_right encs flat_map]. fold (size cs). fold (encs cs). rewrite zlen_app, IH, size_enc by exact C. reflexivity. Qed.
  Lemma skip_blanks_app cs : let (a, b) := skip_blanks cs in cs = a ++ b /\ blanks_only a.
  Proof.
    clear. induction cs as [|c cs IH]; cbn [skip_blanks]; [split; [reflexivity|constructor]|].
    destruct ((c =? 32) || (c =? 9)) eqn:E; [|split; [reflexivity|constructor]].
    destruct (skip_blanks cs) as [a b]. destruct IH as [-> B]. split; [reflexivity|]. constructor; [lia|exact B].
  Qed.
  Lemma plain_part X Y : L = X ++ Y -> Forall code_point X /\ Forall code_point Y.
  Proof. intros E. pose proof L_plain as P. rewrite E in P. apply Forall_app in P as [A B]. auto using plain_points. Qed.

  Lemma emit_calls_at calls : Forall proper_call calls -> forall X loc, L = X ++ flat_map (fun c => c_name c ++ c_after c) calls -> here loc ->
    exists loc', here loc' /\
      emit_calls own d loc (zlen (above (codes Lb) ++ encs X)) l (1 + zlen X) calls
      = Some (more (fst (lines_calls (List.length X) calls)), snd (lines_calls (List.length X) calls), loc').
  Proof.
    induction 1 as [|[name lines aft] calls PC F IH]; intros X loc E H; cbn [emit_calls lines_calls].
    - exists loc. split; [exact H|reflexivity].
    - destruct PC as (_ & _ & _ & LN & _). cbn [c_lines] in LN. cbn [flat_map c_name c_after] in E.
      assert (J : (List.length X <= List.length L)%nat) by (rewrite E, app_length; lia).
      assert (FX : firstn (List.length X) L = X) by (rewrite E, firstn_app, Nat.sub_diag, firstn_all, firstn_O, app_nil_r; reflexivity).
      destruct (update_begin_at loc (List.length X) H J) as (loc1 & H1 & U). rewrite FX in U. rewrite U. cbn [bind].
      pose proof (skip_blanks_app aft) as SB. destruct (skip_blanks aft) as [blanks aft']. destruct SB as [-> BB].
      assert (RL : forall ts, more ((Begin l path L, []) :: repl_lines (1 + zlen X) (padc (List.length X)) lines blanks ++ ts)
        = bare [10] ++ bare (line_text (Begin l path L) ++ [10] ++ padc (List.length X)) ++ (replacement l (1 + zlen X) lines ++ flat_map (put None) blanks) ++ more ts).
      { intros ts. cbn [more flat_map]. fold (more (repl_lines (1 + zlen X) (padc (List.length X)) lines blanks ++ ts)). rewrite more_app, more_repl by (auto using padc_blanks).
        unfold expand. cbn [fst]. unfold bare. rewrite !map_app, <- !app_assoc. reflexivity. }
      rewrite <- (zlen_unf X). change (match aft' with [] => match calls with [] => ?a | _ :: _ => ?b end | _ :: _ => ?b end) with (match aft', calls with [], [] => a | _, _ => b end).
      destruct (match aft', calls with [], [] => true | _, _ => false end) eqn:LAST.
      + destruct aft'; [|discriminate]. destruct calls; [|discriminate]. exists loc1. split; [exact H1|]. cbn [fst snd]. specialize (RL []). rewrite app_nil_r in RL. rewrite RL. cbn [more flat_map]. rewrite app_nil_r. reflexivity.
      + set (X' := X ++ name ++ blanks). set (X2 := X' ++ aft').
        assert (E2 : L = X2 ++ flat_map (fun c => c_name c ++ c_after c) calls) by (rewrite E; unfold X2, X'; rewrite <- !app_assoc; reflexivity).
        assert (E1 : L = X' ++ aft' ++ flat_map (fun c => c_name c ++ c_after c) calls) by (rewrite E2; unfold X2; rewrite <- app_assoc; reflexivity).
        assert (J1 : (List.length X' <= List.length L)%nat) by (rewrite E1, app_length; lia).
        assert (FX1 : firstn (List.length X') L = X') by (rewrite E1, firstn_app, Nat.sub_diag, firstn_all, firstn_O, app_nil_r; reflexivity).
        destruct (plain_part _ _ E2) as [P2 _]. destruct (plain_part _ _ E1) as [P1 _]. unfold X2 in P2. apply Forall_app in P2 as [_ P2]. pose proof P1 as P3. unfold X' in P3. apply Forall_app in P3 as [_ P3]. apply Forall_app in P3 as [P3 P4].
        assert (POS : zlen (above (codes Lb) ++ encs X) + size name + size blanks = zlen (above (codes Lb) ++ encs X')) by (unfold X'; rewrite !size_encs, !encs_app, !zlen_app by auto; lia).
        assert (POS2 : zlen (above (codes Lb) ++ encs X') + size aft' = zlen (above (codes Lb) ++ encs X2)) by (unfold X2; rewrite size_encs, !encs_app, !zlen_app by auto; lia).
        destruct (update_end_at loc1 (List.length X') H1 J1) as (loc2 & H2 & V). rewrite FX1 in V.
        destruct (IH X2 loc2 E2 H2) as (loc3 & H3 & R). exists loc3. split; [exact H3|].
        assert (LX : (List.length X + List.length name + List.length blanks)%nat = List.length X') by (unfold X'; rewrite !app_length; lia).
        assert (LX2 : (List.length X' + List.length aft')%nat = List.length X2) by (unfold X2; rewrite app_length; lia).
        assert (KX : 1 + zlen X + zlen name + zlen blanks = 1 + zlen X') by (unfold X'; rewrite !zlen_app; lia).
        assert (KX2 : 1 + zlen X' + zlen aft' = 1 + zlen X2) by (unfold X2; rewrite zlen_app; lia).
        rewrite POS, LX, LX2, KX, KX2, POS2, V. cbn [bind]. rewrite R. cbn [bind].
        destruct (lines_calls (List.length X2) calls) as [r required] eqn:LC. cbn [fst snd].
        assert (OUT : bare [10] ++ bare (line_text (Begin l path L) ++ [10] ++ padc (List.length X)) ++ (replacement l (1 + zlen X) lines ++ flat_map (put None) blanks)
            ++ bare [10] ++ bare (line_text (End l) ++ [10] ++ padc (List.length X')) ++ copy l (1 + zlen X') aft' ++ more r
          = more (((Begin l path L, []) :: repl_lines (1 + zlen X) (padc (List.length X)) lines blanks)
               ++ (End l, []) :: (Code (padc (List.length X') ++ aft'), repeat None (List.length X') ++ tags l (1 + Z.of_nat (List.length X')) aft') :: r)).
        { cbn [app]. rewrite RL. f_equal. f_equal. f_equal. cbn [more flat_map]. fold (more r). unfold expand. cbn [fst snd].
          pose proof (chars_pad (padc (List.length X')) aft' (tags l (1 + Z.of_nat (List.length X')) aft') (padc_blanks _)) as CP. rewrite padc_length in CP by exact J1. rewrite CP.
          rewrite chars_tags, <- (zlen_unf X'). unfold bare. rewrite !map_app, <- !app_assoc. reflexivity. }
        destruct aft' as [|a0 aft']; [destruct calls as [|c0 calls]; [discriminate|]|]; cbn [fst snd]; rewrite <- OUT; rewrite <- !app_assoc; reflexivity.
  Qed.

  (** ** Where the lines are found *)
  Variable src : Z -> list Z.
  Hypothesis src_here : src l = L.
  Hypothesis path_quote : ~ In 34 path.
  Hypothesis l_small : l < SIZE_MAX.
  Definition good_line (st : state) (tl : tline) (next : option line) : Prop :=
    match fst tl with
    | Code cur => forall j x k, nth_error (snd tl) j = Some (Some (x, k)) -> place_of st cur j next = mkPlace (Some path) x k (src x)
    | _ => True
    end.
  Fixpoint good (st : state) (tls : list tline) (st' : state) : Prop :=
    match tls with
    | [] => st' = st
    | tl :: tls => good_line st tl (hd_error (map fst tls)) /\ exists s, step st (fst tl) = Some s /\ good s tls st'
    end.
  Definition no_begin (tls : list tline) : Prop := match tls with (Begin _ _ _, _) :: _ => False | _ => True end.
  Lemma good_app a : forall st b s st', good st a s -> good s b st' -> no_begin b -> good st (a ++ b) st'.
  Proof.
    clear. induction a as [|tl a IH]; intros st b s st' A B N; cbn [app good] in *; [subst s; exact B|]. destruct A as (A1 & s1 & A2 & A3). split; [|exists s1; split; [exact A2|eapply IH; eauto]].
    destruct a as [|t a]; [|exact A1]. cbn [app map hd_error] in *. destruct b as [|[lb tb] b]; [exact A1|]. cbn [map hd_error fst].
    unfold good_line in *. destruct (fst tl) as [cur| | |]; auto. intros j x k H. specialize (A1 j x k H). cbn [no_begin] in N. destruct lb; auto; contradiction.
  Qed.
  Lemma good_cut a : forall st b st', good st (a ++ b) st' -> exists s, walk st (map fst a) = Some s /\ good s b st'.
  Proof.
    clear. induction a as [|tl a IH]; intros st b st' G; cbn [app good map walk] in *; [eauto|]. destruct G as (_ & s & S & G). rewrite S. cbn [bind]. eapply IH, G.
  Qed.
  Lemma nth_repeat_eq {A} (x y : A) n j : nth_error (repeat x n) j = Some y -> y = x /\ (j < n)%nat.
  Proof. clear. intros H. split; [apply nth_error_In, repeat_spec in H; exact H|]. assert (Q : nth_error (repeat x n) j <> None) by congruence. apply nth_error_Some in Q. rewrite repeat_length in Q. exact Q. Qed.
  Lemma nth_skip (n : nat) (ts : list label) j x : nth_error (repeat None n ++ ts) j = Some (Some x) -> (n <= j)%nat /\ nth_error ts (j - n) = Some (Some x).
  Proof.
    clear. intros H. destruct (Nat.lt_ge_cases j n) as [C|C].
    - rewrite nth_error_app1 in H by (rewrite repeat_length; exact C). apply nth_repeat_eq in H as [H _]. discriminate.
    - rewrite nth_error_app2 in H by (rewrite repeat_length; exact C). rewrite repeat_length in H. auto.
  Qed.
  Lemma nth_mid (t : Z * Z) n m j x : nth_error (repeat (Some t) n ++ repeat (@None (Z * Z)) m) j = Some (Some x) -> x = t /\ (j < n)%nat.
  Proof.
    clear. intros H. destruct (Nat.lt_ge_cases j n) as [C|C].
    - rewrite nth_error_app1 in H by (rewrite repeat_length; exact C). apply nth_repeat_eq in H as [H _]. split; [congruence|exact C].
    - rewrite nth_error_app2 in H by (rewrite repeat_length; exact C). apply nth_repeat_eq in H as [H _]. discriminate.
  Qed.
  Lemma repl_rest k blanks lines : good (Inside path l L (Some k)) (repl_lines k [] lines blanks) (Inside path l L (Some k)).
  Proof.
    assert (G : forall cur ts nx, (forall j x, nth_error ts j = Some (Some x) -> x = (l, k)) -> match nx with Some (Begin _ _ _) => False | _ => True end ->
      good_line (Inside path l L (Some k)) (Code cur, ts) nx).
    { intros cur ts nx H NB j x y Q. cbn [snd] in Q. apply H in Q. inversion Q; subst. unfold place_of. destruct nx as [[]|]; rewrite ?src_here; try reflexivity; contradiction. }
    induction lines as [|r lines IH]; [reflexivity|]. destruct lines as [|r2 lines].
    - cbn [repl_lines good]. split; [|eexists; split; [reflexivity|reflexivity]]. apply G; [|exact Logic.I]. intros j x H. apply nth_skip in H as [_ H]. apply nth_mid in H as [H _]. exact H.
    - change (repl_lines k [] (r :: r2 :: lines) blanks) with ((Code ([] ++ r), repeat None 0 ++ repeat (call_tag k) (List.length r)) :: repl_lines k [] (r2 :: lines) blanks).
      cbn [good]. split; [|eexists; split; [reflexivity|exact IH]]. apply G; [|destruct lines; exact Logic.I]. intros j x H. apply nth_skip in H as [_ H].
      apply nth_repeat_eq in H as [H _]. unfold call_tag in H. congruence.
  Qed.
  Lemma indent_pad pre w : blanks_only pre -> indent (pre ++ w) = zlen pre + indent w.
  Proof. clear. induction 1 as [|c pre C _ IH]; [reflexivity|]. cbn [app indent]. replace ((c =? 32) || (c =? 9)) with true by lia. rewrite IH, zlen_cons. lia. Qed.
  Lemma indent_pos r : 0 <= indent r.
  Proof. clear. induction r as [|b r IH]; cbn [indent]; [lia|]. destruct (_ || _); lia. Qed.
  Lemma repl_first j blanks lines : lines <> [] -> indent (hd [] lines) = 0 -> (j <= List.length L)%nat ->
    exists k, good (Inside path l L None) (repl_lines (1 + Z.of_nat j) (padc j) lines blanks) (Inside path l L (Some k)).
  Proof.
    intros N I J. destruct lines as [|r lines]; [congruence|]. cbn [hd] in I.
    assert (PL := padc_length j J). assert (ZL : zlen (padc j) = Z.of_nat j) by (rewrite zlen_unf, PL; reflexivity).
    assert (G : forall tl m nx, match nx with Some (Begin _ _ _) => False | _ => True end ->
      good_line (Inside path l L None) (Code (padc j ++ r ++ tl), repeat None (List.length (padc j)) ++ repeat (call_tag (1 + Z.of_nat j)) (List.length r) ++ repeat None m) nx).
    { intros tl m nx NB i x y Q. cbn [snd] in Q. apply nth_skip in Q as [Q1 Q]. apply nth_mid in Q as [Q Q2]. inversion Q; subst x y. rewrite PL in *.
      assert (IN : 1 + indent (firstn i (padc j ++ r ++ tl)) = 1 + Z.of_nat j).
      { rewrite firstn_app, PL, firstn_all2 by lia. rewrite indent_pad, ZL by apply padc_blanks. destruct r as [|c r]; [cbn in Q2; lia|].
        destruct (i - j)%nat; [cbn [firstn indent]; lia|]. cbn [app firstn indent] in *. destruct ((c =? 32) || (c =? 9)); [|lia].
        exfalso. pose proof (indent_pos r). lia. }
      unfold place_of. rewrite IN. destruct nx as [[]|]; rewrite ?src_here; try reflexivity; contradiction. }
    destruct lines as [|r2 lines].
    - cbn [repl_lines good]. eexists. split; [apply G; exact Logic.I|]. eexists. split; reflexivity.
    - change (repl_lines (1 + Z.of_nat j) (padc j) (r :: r2 :: lines) blanks) with ((Code (padc j ++ r), repeat None (List.length (padc j)) ++ repeat (call_tag (1 + Z.of_nat j)) (List.length r)) :: repl_lines (1 + Z.of_nat j) [] (r2 :: lines) blanks).
      exists (1 + Z.of_nat j). cbn [good]. split.
      + specialize (G [] 0%nat (hd_error (map fst (repl_lines (1 + Z.of_nat j) [] (r2 :: lines) blanks)))). cbn [repeat] in G. rewrite !app_nil_r in G. apply G. destruct lines; exact Logic.I.
      + eexists. split; [reflexivity|]. rewrite indent_pad, ZL, I, Z.add_0_r by apply padc_blanks. apply repl_rest.
  Qed.
  Lemma repl_code k pre lines blanks : lines <> [] -> exists cur ts r, repl_lines k pre lines blanks = (Code cur, ts) :: r.
  Proof. clear. destruct lines as [|r [|r2 lines]]; [congruence| |]; cbn; eauto. Qed.

  Lemma calls_good calls : Forall proper_call calls -> forall X, L = X ++ flat_map (fun c => c_name c ++ c_after c) calls -> calls <> [] -> forall st,
    exists st' r, fst (lines_calls (List.length X) calls) = (Begin l path L, []) :: r /\ good st (fst (lines_calls (List.length X) calls)) st'
      /\ (snd (lines_calls (List.length X) calls) = false -> st' = After path (l + 1) l L).
  Proof.
    induction 1 as [|[name lines aft] calls PC F IH]; intros X E N st; [congruence|]. cbn [lines_calls].
    destruct PC as (_ & _ & _ & LN & _ & LI). cbn [c_lines] in LN, LI. cbn [flat_map c_name c_after] in E.
    assert (J : (List.length X <= List.length L)%nat) by (rewrite E, app_length; lia).
    pose proof (skip_blanks_app aft) as SB. destruct (skip_blanks aft) as [blanks aft']. destruct SB as [-> BB].
    destruct (repl_first (List.length X) blanks lines LN LI J) as [k0 G].
    destruct (repl_code (1 + Z.of_nat (List.length X)) (padc (List.length X)) lines blanks LN) as (cur0 & ts0 & r0 & RC).
    assert (GB : good st ((Begin l path L, []) :: repl_lines (1 + Z.of_nat (List.length X)) (padc (List.length X)) lines blanks) (Inside path l L (Some k0))).
    { cbn [good]. split; [exact Logic.I|]. eexists. split; [reflexivity|exact G]. }
    destruct (match aft', calls with [], [] => true | _, _ => false end) eqn:LAST.
    - destruct aft'; [|discriminate]. destruct calls; [|discriminate]. cbn [fst snd]. eexists _, _. split; [reflexivity|]. split; [exact GB|discriminate].
    - set (X' := X ++ name ++ blanks). set (X2 := X' ++ aft').
      assert (LX : (List.length X + List.length name + List.length blanks)%nat = List.length X') by (unfold X'; rewrite !app_length; lia).
      assert (LX2 : (List.length X' + List.length aft')%nat = List.length X2) by (unfold X2; rewrite app_length; lia).
      assert (E2 : L = X2 ++ flat_map (fun c => c_name c ++ c_after c) calls) by (rewrite E; unfold X2, X'; rewrite <- !app_assoc; reflexivity).
      rewrite LX, LX2.
      assert (REST : forall s, exists st', good s (fst (lines_calls (List.length X2) calls)) st' /\ (calls = [] -> st' = s) /\ (calls <> [] -> snd (lines_calls (List.length X2) calls) = false -> st' = After path (l + 1) l L)
         /\ (hd_error (map fst (fst (lines_calls (List.length X2) calls))) = None \/ hd_error (map fst (fst (lines_calls (List.length X2) calls))) = Some (Begin l path L))).
      { intros s. destruct calls as [|c0 calls]; [cbn; exists s; repeat split; auto; congruence|].
        destruct (IH X2 E2 ltac:(discriminate) s) as (st' & r & R1 & R2 & R3). exists st'. split; [exact R2|]. split; [discriminate|]. split; [auto|]. right. rewrite R1. reflexivity. }
      destruct (REST (After path (l + 1) l L)) as (st' & R1 & R2 & R3 & R4).
      assert (GE : good (Inside path l L (Some k0)) ((End l, []) :: (Code (padc (List.length X') ++ aft'), repeat None (List.length X') ++ tags l (1 + Z.of_nat (List.length X')) aft') :: fst (lines_calls (List.length X2) calls)) st').
      { cbn [good fst step]. split; [exact Logic.I|]. replace (l <=? l) with true by lia. eexists. split; [reflexivity|]. split; [|eexists; split; [reflexivity|exact R1]].
        unfold good_line. cbn [fst snd]. intros i x y Q. apply nth_skip in Q as [Q1 Q]. apply tags_nth in Q as [-> ->]. rewrite src_here.
        replace (1 + Z.of_nat (List.length X') + Z.of_nat (i - List.length X')) with (1 + Z.of_nat i) by lia.
        destruct R4 as [R4|R4]; rewrite R4; cbn [place_of]; [replace (l =? l) with true by lia|]; reflexivity. }
      destruct (lines_calls (List.length X2) calls) as [r required] eqn:LC. cbn [fst snd] in *.
      assert (ALL : good st (((Begin l path L, []) :: repl_lines (1 + Z.of_nat (List.length X)) (padc (List.length X)) lines blanks)
               ++ (End l, []) :: (Code (padc (List.length X') ++ aft'), repeat None (List.length X') ++ tags l (1 + Z.of_nat (List.length X')) aft') :: r) st').
      { eapply good_app; [exact GB|exact GE|exact Logic.I]. }
      exists st'. destruct aft' as [|a0 aft']; [destruct calls as [|c0 calls]; [discriminate|]|]; cbn [fst snd app] in *; (eexists; split; [reflexivity|split; [exact ALL|]]).
      + intros Q. apply R3; [discriminate|exact Q].
      + intros Q. destruct calls as [|c0 calls]; [apply R2; reflexivity|apply R3; [discriminate|exact Q]].
  Qed.

  (** The lines can be told from marks. *)
  Definition sound (tl : tline) : Prop := proper (fst tl) /\ fits tl.
  Lemma proper_code cs : Forall plain_char cs -> hd 0 cs <> 35 -> proper (Code cs).
  Proof. clear. intros P H. split; [exact P|]. destruct cs as [|c cs]; [cbn; discriminate|]. cbn [firstn hd] in *. cbn. intros E. inversion E. congruence. Qed.
  Lemma blanks_plain cs : blanks_only cs -> Forall plain_char cs.
  Proof. clear. intros B. eapply Forall_impl; [|exact B]. cbn. intros c C. unfold plain_char, encodable. lia. Qed.
  Lemma blanks_hd cs r : blanks_only cs -> hd 0 r <> 35 -> hd 0 (cs ++ r) <> 35.
  Proof. clear. intros B H. destruct B as [|c cs C B]; [exact H|]. cbn. destruct C; subst; lia. Qed.
  Lemma l_range : 0 <= l < SIZE_MAX.
  Proof. split; [unfold l; pose proof (zlen_nonneg Lb); lia|exact l_small]. Qed.
  Lemma sound_begin : sound (Begin l path L, []).
  Proof. split; [|reflexivity]. exact (conj l_range (conj path_plain (conj path_quote L_plain))). Qed.
  Lemma sound_end : sound (End l, []).
  Proof. split; [|reflexivity]. exact l_range. Qed.
  Lemma sound_usual : sound (Usual l path, []).
  Proof. split; [|reflexivity]. exact (conj l_range (conj path_plain path_quote)). Qed.
  Lemma sound_repl k blanks lines : blanks_only blanks -> Forall (fun r => Forall plain_char r /\ hd 0 r <> 35) lines ->
    forall pre, blanks_only pre -> Forall sound (repl_lines k pre lines blanks).
  Proof.
    clear. intros BB. induction 1 as [|r lines [P H] F IH]; intros pre B; [constructor|]. destruct lines as [|r2 lines].
    - constructor; [|constructor]. split; [|unfold fits; cbn [fst snd]; rewrite !app_length, !repeat_length; lia]. apply proper_code.
      + apply Forall_app; split; [apply blanks_plain, B|apply Forall_app; split; [exact P|apply blanks_plain, BB]].
      + apply blanks_hd; [exact B|]. destruct r; [|exact H]. cbn [app]. rewrite <- (app_nil_r blanks). apply blanks_hd; [exact BB|exact H].
    - change (repl_lines k pre (r :: r2 :: lines) blanks) with ((Code (pre ++ r), repeat None (List.length pre) ++ repeat (call_tag k) (List.length r)) :: repl_lines k [] (r2 :: lines) blanks).
      constructor; [|apply IH; constructor]. split; [|unfold fits; cbn [fst snd]; rewrite !app_length, !repeat_length; lia].
      apply proper_code; [apply Forall_app; split; [apply blanks_plain, B|exact P]|]. apply blanks_hd; auto.
  Qed.
  Lemma sound_calls calls : Forall proper_call calls -> forall X, L = X ++ flat_map (fun c => c_name c ++ c_after c) calls ->
    Forall sound (fst (lines_calls (List.length X) calls)).
  Proof.
    induction 1 as [|[name lines aft] calls PC F IH]; intros X E; cbn [lines_calls]; [constructor|].
    destruct PC as (NN & _ & PA & LN & PL & LI). cbn [c_lines c_name c_after] in *. cbn [flat_map c_name c_after] in E.
    pose proof (skip_blanks_app aft) as SB. destruct (skip_blanks aft) as [blanks aft']. destruct SB as [-> BB].
    set (X' := X ++ name ++ blanks). set (X2 := X' ++ aft').
    assert (LX : (List.length X + List.length name + List.length blanks)%nat = List.length X') by (unfold X'; rewrite !app_length; lia).
    assert (LX2 : (List.length X' + List.length aft')%nat = List.length X2) by (unfold X2; rewrite app_length; lia).
    assert (E2 : L = X2 ++ flat_map (fun c => c_name c ++ c_after c) calls) by (rewrite E; unfold X2, X'; rewrite <- !app_assoc; reflexivity).
    specialize (IH X2 E2). rewrite LX, LX2. destruct (lines_calls (List.length X2) calls) as [r required]. cbn [fst] in IH.
    assert (J' : (List.length X' <= List.length L)%nat) by (rewrite E2; unfold X2; rewrite !app_length; lia).
    assert (PL' := padc_length (List.length X') J').
    assert (R : Forall sound ((Begin l path L, []) :: repl_lines (1 + Z.of_nat (List.length X)) (padc (List.length X)) lines blanks)).
    { constructor; [apply sound_begin|]. apply sound_repl; auto using padc_blanks. }
    assert (T : Forall sound ((End l, []) :: (Code (padc (List.length X') ++ aft'), repeat None (List.length X') ++ tags l (1 + Z.of_nat (List.length X')) aft') :: r)).
    { constructor; [apply sound_end|]. constructor; [|exact IH]. split.
      - apply proper_code; [apply Forall_app; split; [apply blanks_plain, padc_blanks|apply Forall_app in PA as [_ PA]; exact PA]|].
        assert (NE : padc (List.length X') <> []) by (intros Q; rewrite Q in PL'; unfold X' in PL'; rewrite !app_length in PL'; destruct name; [congruence|cbn in PL'; lia]).
        pose proof (padc_blanks (List.length X')) as B. destruct B as [|c cs C B]; [congruence|]. cbn. destruct C; subst; lia.
      - unfold fits. cbn [fst snd]. rewrite !app_length, repeat_length, tags_length, PL'. reflexivity. }
    pose proof (proj2 (Forall_app _ _ _) (conj R T)) as RT.
    destruct aft' as [|a0 aft']; [destruct calls as [|c0 calls]|]; cbn [fst app] in *; auto.
  Qed.

  (** A line of the file. *)
  Definition ready (n : Z) (st : state) : Prop :=
    match st with
    | Plain (Some p) k => p = path /\ k = n
    | After p k n0 _ => p = path /\ k = n /\ n0 < n
    | _ => False
    end.
  Definition lines_of (s : sline) : list tline := (Code (s_first s), tags l 1 (s_first s)) :: fst (lines_calls (List.length (s_first s)) (s_calls s)).
  Lemma sound_line s : proper_sline s -> L = source_line s -> Forall sound (lines_of s).
  Proof.
    intros (P & H & PC) E. constructor; [|apply sound_calls; [exact PC|exact E]]. split; [|unfold fits; cbn [fst snd]; rewrite tags_length; reflexivity].
    apply proper_code; [exact P|]. unfold source_line in H. destruct (s_first s); [cbn; discriminate|exact H].
  Qed.
  Lemma good_of s st : proper_sline s -> L = source_line s -> ready l st ->
    exists st', good st (lines_of s) st' /\ (snd (lines_calls (List.length (s_first s)) (s_calls s)) = false -> ready (l + 1) st').
  Proof.
    intros (P & H & PC) E R.
    assert (S1 : exists s1, step st (Code (s_first s)) = Some s1 /\ ready (l + 1) s1).
    { destruct st as [[p|] k|p k c o|p k n0 c]; cbn [ready] in R; try contradiction; cbn [step]; eexists; (split; [reflexivity|]); cbn [ready]; intuition lia. }
    destruct S1 as (s1 & S1 & R1).
    assert (G1 : forall nx, nx = None /\ L = s_first s \/ nx = Some (Begin l path L) -> good_line st (Code (s_first s), tags l 1 (s_first s)) nx).
    { intros nx N j x k T. cbn [snd] in T. apply tags_nth in T as [-> ->]. rewrite src_here. destruct N as [[-> E0]| ->]; [|cbn [place_of]; f_equal; lia].
      destruct st as [[p|] k|p k c o|p k n0 c]; cbn [ready] in R; try contradiction; cbn [place_of]; rewrite <- E0.
      - destruct R as [R2 R3]. rewrite R2, R3. reflexivity.
      - destruct R as (R2 & R3 & R). rewrite R2, R3. replace (l =? n0) with false by lia. reflexivity. }
    unfold lines_of. destruct (s_calls s) as [|c calls] eqn:C.
    - exists s1. cbn [lines_calls fst snd good map hd_error]. split; [|auto]. split; [|eauto]. apply G1. left. split; [reflexivity|]. rewrite E. unfold source_line. rewrite C. apply app_nil_r.
    - destruct (calls_good (c :: calls) PC (s_first s)) with (st := s1) as (st' & r & E1 & G & F).
      + rewrite E. unfold source_line. rewrite C. reflexivity.
      + discriminate.
      + exists st'. split.
        * cbn [good fst]. split; [|eauto]. apply G1. right. rewrite E1. reflexivity.
        * intros Q. rewrite (F Q). cbn [ready]. split; [reflexivity|]. split; [reflexivity|]. lia.
  Qed.
End Source.

Section File.
  Variable path : list Z.
  Variable ss : list sline.
  Hypothesis path_plain : Forall plain_char path.
  Hypothesis path_quote : ~ In 34 path.
  Hypothesis path_some : path <> [].
  Hypothesis all_proper : Forall proper_sline ss.
  Hypothesis d_small : 1 + zlen (source ss) < SIZE_MAX.
  Definition src (x : Z) : list Z := nth (Z.to_nat (x - 1)) (map source_line ss) [].

  Lemma source_codes : source ss = text (codes (map source_line ss)).
  Proof. unfold source, codes. rewrite map_map. reflexivity. Qed.
  Lemma call_plain c : proper_call c -> Forall plain_char (c_name c ++ c_after c).
  Proof. intros (_ & A & B & _). apply Forall_app. auto. Qed.
  Lemma line_proper s : proper_sline s -> proper (Code (source_line s)).
  Proof.
    intros (A & B & C). apply proper_code; [|exact B]. unfold source_line. apply Forall_app. split; [exact A|]. clear -C. induction C as [|c cs C _ IH]; [constructor|].
    cbn [flat_map]. apply Forall_app. split; [apply call_plain, C|exact IH].
  Qed.
  Lemma lines_count a b : b <> [] -> zlen a <= zlen (text (codes (a ++ b))).
  Proof.
    clear. intros B. induction a as [|x a IH]; [apply zlen_nonneg|]. cbn [app codes map]. rewrite text_cons, zlen_cons, zlen_app. fold (codes (a ++ b)).
    pose proof (zlen_nonneg (line_text (Code x))). unfold codes in *. destruct (map Code (a ++ b)) as [|y r] eqn:E.
    - apply map_eq_nil, app_eq_nil in E as [_ E]. congruence.
    - unfold below. rewrite zlen_cons. lia.
  Qed.
  Lemma copy_tags n cs : forall k, copy n k cs = chars cs (tags n k cs).
  Proof. clear. induction cs as [|c cs IH]; intros k; [reflexivity|]. cbn [copy tags chars]. rewrite IH. reflexivity. Qed.
  Lemma no_begin_app a b : no_begin a -> no_begin b -> no_begin (a ++ b).
  Proof. clear. destruct a as [|[[] ?] a]; auto. Qed.
  Lemma emit_lines_at rest : forall done loc required buffer tb,
    ss = done ++ rest ->
    let Lb := map source_line done in
    here Lb loc ->
    (required = false -> buffer = whole tb /\ Forall sound tb /\ no_begin tb) ->
    exists tls, emit_lines (encs path) (source ss) loc (zlen (above (codes Lb))) (1 + zlen Lb) required buffer rest = Some (whole tls)
      /\ Forall sound tls /\ no_begin tls
      /\ forall st, required = true \/ (exists s1, good path src st tb s1 /\ ready path (1 + zlen Lb) s1) -> exists st', good path src st tls st'.
  Proof.
    induction rest as [|s rest IH]; intros done loc required buffer tb E Lb H B.
    - exists []. cbn [emit_lines good]. repeat split; auto; eauto.
    - cbn [emit_lines]. set (L := source_line s). set (La := map source_line rest).
      assert (EL : map source_line ss = Lb ++ L :: La) by (rewrite E, map_app; reflexivity).
      assert (ED : source ss = text (codes (Lb ++ L :: La))) by (rewrite source_codes, EL; reflexivity).
      assert (AP : Forall (fun cs => proper (Code cs)) (Lb ++ L :: La)).
      { rewrite <- EL, Forall_map. eapply Forall_impl; [|exact all_proper]. exact line_proper. }
      assert (PS : proper_sline s) by (rewrite E in all_proper; apply Forall_app in all_proper as [_ F]; inversion F; assumption).
      assert (DS : zlen (text (codes (Lb ++ L :: La))) < SIZE_MAX) by (rewrite <- ED; lia).
      assert (SH : src (1 + zlen Lb) = L).
      { unfold src. rewrite EL. replace (Z.to_nat (1 + zlen Lb - 1)) with (List.length Lb) by (rewrite zlen_unf; lia). rewrite app_nth2, Nat.sub_diag by lia. reflexivity. }
      assert (LS : 1 + zlen Lb < SIZE_MAX) by (pose proof (lines_count Lb (L :: La) ltac:(discriminate)); rewrite <- ED in *; lia).
      assert (M : exists mark loc1, (if required then loc_update (encs path) (mkIn (source ss) (zlen (above (codes Lb)))) loc else Some ([], loc)) = Some (mark, loc1)
         /\ here Lb loc1 /\ (required = true -> bare mark = whole [(Usual (1 + zlen Lb) path, [])])).
      { destruct required; [|exists [], loc; repeat split; auto; discriminate]. rewrite ED.
        destruct (update_at path Lb L La path_plain path_some AP DS loc H) as (loc1 & H1 & U). rewrite U. exists (line_text (Usual (1 + zlen Lb) path) ++ [10]), loc1. split; [reflexivity|]. split; [exact H1|].
        intros _. cbn [whole flat_map expand fst]. unfold bare. rewrite map_app, app_nil_r. reflexivity. }
      destruct M as (mark & loc1 & -> & H1 & M). cbn [bind].
      set (buffer1 := if required then bare mark else buffer). set (tb1 := if required then [(Usual (1 + zlen Lb) path, [])] else tb).
      assert (B1 : buffer1 = whole tb1 /\ Forall sound tb1 /\ no_begin tb1).
      { unfold buffer1, tb1. destruct required; [|apply B; reflexivity]. split; [apply M; reflexivity|]. split; [|exact Logic.I]. constructor; [|constructor]. apply sound_usual; auto. }
      destruct B1 as (B1 & B2 & B3).
      assert (NX : zlen (above (codes Lb)) + size (sline_text s) + 1 = zlen (above (codes (map source_line (done ++ [s]))))).
      { rewrite map_app. unfold codes. rewrite map_app. cbn [map]. rewrite above_snoc, zlen_app. cbn [line_text]. rewrite zlen_app, zlen_cons, zlen_nil. change (sline_text s) with (source_line s). rewrite size_encs by (apply plain_points, (proj1 (line_proper s PS))). fold Lb. lia. }
      assert (LN : 1 + zlen Lb + 1 = 1 + zlen (map source_line (done ++ [s]))) by (unfold Lb; rewrite map_app, zlen_app; cbn [map]; rewrite zlen_cons, zlen_nil; lia).
      assert (HB : forall loc, here Lb loc -> here (map source_line (done ++ [s])) (loc_line_break (zlen (above (codes (map source_line (done ++ [s]))))) loc)).
      { intros l0 [y ->]. unfold loc_line_break. cbn. eexists. rewrite <- LN. reflexivity. }
      rewrite NX, LN.
      assert (SL : Forall sound (lines_of path Lb L s)) by (apply (sound_line path Lb L La); auto).
      assert (GO : forall st, ready path (1 + zlen Lb) st -> exists st', good path src st (lines_of path Lb L s) st' /\ (snd (lines_calls path Lb L (List.length (s_first s)) (s_calls s)) = false -> ready path (1 + zlen Lb + 1) st')).
      { intros st R. apply (good_of path Lb L La); auto. }
      destruct (is_empty s) eqn:EM.
      + assert (C : s_calls s = []) by (unfold is_empty in EM; destruct (skip_blanks (s_first s)) as [? []]; [destruct (s_calls s); [reflexivity|discriminate]|discriminate]).
        edestruct (IH (done ++ [s]) (loc_line_break (zlen (above (codes (map source_line (done ++ [s]))))) loc1) required (buffer1 ++ copy (1 + zlen Lb) 1 (s_first s) ++ bare [10]) (tb1 ++ lines_of path Lb L s)) as (tls & I1 & I2 & I3 & I4).
        * rewrite E, <- app_assoc. reflexivity.
        * apply HB, H1.
        * intros _. split; [rewrite whole_app, <- B1, copy_tags; unfold lines_of; rewrite C; cbn [lines_calls fst whole flat_map expand snd]; rewrite app_nil_r; reflexivity|].
          split; [apply Forall_app; auto|apply no_begin_app; [exact B3|exact Logic.I]].
        * exists tls. split; [exact I1|]. split; [exact I2|]. split; [exact I3|]. intros st [R|(s1 & G & R)]; apply I4; [left; exact R|].
          destruct required eqn:RQ; [left; reflexivity|right]. destruct (GO s1 R) as (s2 & G2 & R2). exists s2. split; [eapply good_app; [exact G|exact G2|exact Logic.I]|].
          rewrite <- LN. apply R2. rewrite C. reflexivity.
      + destruct (emit_calls_at path Lb L La path_plain path_some AP DS (s_calls s) (proj2 (proj2 PS)) (s_first s) loc1 eq_refl H1) as (loc2 & H2 & EC).
        replace (zlen (above (codes Lb)) + size (s_first s)) with (zlen (above (codes Lb) ++ encs (s_first s))) by (rewrite zlen_app, size_encs by (apply plain_points, PS); reflexivity).
        rewrite ED, EC. cbn [bind].
        set (required2 := snd (lines_calls path Lb L (List.length (s_first s)) (s_calls s))) in *.
        edestruct (IH (done ++ [s]) (loc_line_break (zlen (above (codes (map source_line (done ++ [s]))))) loc2) required2 [] []) as (tls & I1 & I2 & I3 & I4).
        * rewrite E, <- app_assoc. reflexivity.
        * apply HB, H2.
        * intros _. repeat split. constructor.
        * rewrite <- ED, I1. cbn [bind]. exists (tb1 ++ lines_of path Lb L s ++ tls). split; [|split; [|split]].
          -- f_equal. rewrite !whole_app, <- B1. unfold lines_of. rewrite <- whole_more. rewrite copy_tags. cbn [expand fst snd]. rewrite <- !app_assoc. reflexivity.
          -- apply Forall_app. split; [exact B2|]. apply Forall_app. auto.
          -- apply no_begin_app; [exact B3|exact Logic.I].
          -- intros st R.
             assert (G1 : exists s1, good path src st tb1 s1 /\ ready path (1 + zlen Lb) s1).
             { unfold tb1. destruct required; [|destruct R as [R|R]; [discriminate|exact R]]. exists (Plain (Some path) (1 + zlen Lb)). split; [|split; reflexivity].
               cbn [good]. split; [exact Logic.I|]. eexists. split; reflexivity. }
             destruct G1 as (s1 & G1 & R1). destruct (GO s1 R1) as (s2 & G2 & R2). fold required2 in R2.
             destruct (I4 s2) as [st' G3]; [destruct required2; [left; reflexivity|right]; exists s2; split; [reflexivity|rewrite <- LN; apply R2; reflexivity]|].
             exists st'. eapply good_app; [exact G1| |exact Logic.I]. eapply good_app; [exact G2|exact G3|exact I3].
  Qed.

  Lemma emit_file_ok : exists tls, emit_file (encs path) (source ss) ss = Some (whole tls) /\ Forall sound tls /\ exists st', good path src start tls st'.
  Proof.
    unfold emit_file. assert (S0 : exists loc, loc_search (mkIn (source ss) 0) = Some loc /\ (ss <> [] -> here [] loc)).
    { destruct ss as [|s r] eqn:E; [eexists; split; [reflexivity|congruence]|]. rewrite <- E in *.
      assert (EL : map source_line ss = [] ++ source_line s :: map source_line r) by (rewrite E; reflexivity).
      assert (AP : Forall (fun cs => proper (Code cs)) ([] ++ source_line s :: map source_line r)).
      { rewrite <- EL, Forall_map. eapply Forall_impl; [|exact all_proper]. exact line_proper. }
      pose proof (src_search [] (source_line s) (map source_line r) AP) as Q. rewrite <- EL, <- source_codes in Q. specialize (Q ltac:(lia) (mkLoc SIZE_MAX 0 FIRST_LINE FIRST_SYMBOL) 0%nat).
      eexists. split; [apply Q; [eexists; reflexivity|lia]|]. intros _. eexists. reflexivity. }
    destruct S0 as (loc & -> & H0). cbn [bind]. destruct ss as [|s0 r0] eqn:E0.
    - exists []. split; [reflexivity|]. split; [constructor|]. exists start. reflexivity.
    - rewrite <- E0 in *. destruct (emit_lines_at ss [] loc true [] [] eq_refl (H0 ltac:(congruence)) ltac:(discriminate)) as (tls & A & B & _ & C).
      exists tls. split; [exact A|]. split; [exact B|]. apply C. left. reflexivity.
  Qed.
  Lemma emitted_place own out a b x k r : emit_file (encs path) (source ss) ss = Some out -> zlen out < SIZE_MAX ->
    out = a ++ (b, Some (x, k)) :: r ->
    exists loc, loc_search (mkIn (map fst out) (zlen a)) = Some loc /\ shows own (map fst out) loc (mkPlace (Some path) x k (src x)).
  Proof.
    intros E SM O. destruct emit_file_ok as (tls & E1 & F & st' & G). rewrite E in E1. injection E1 as ->.
    destruct (find_line tls a b (x, k) r F O) as (t1 & cur & ts & t2 & j & T & N & J & A).
    rewrite (whole_fst _ F). set (d := above (map fst tls)).
    assert (D : d = text (map fst t1 ++ Code cur :: map fst t2 ++ [Code []])).
    { unfold d. rewrite T, map_app. cbn [map fst]. change (map fst t1 ++ Code cur :: map fst t2 ++ [Code []]) with (map fst t1 ++ (Code cur :: map fst t2) ++ [Code []]).
      rewrite app_assoc, text_app. cbn [text line_text encs flat_map]. rewrite app_nil_r. reflexivity. }
    assert (ZL : zlen (whole tls) = zlen d) by (unfold d; rewrite <- (whole_fst _ F), !zlen_unf, map_length; reflexivity).
    rewrite T in G. apply good_cut in G as (st & W & G). cbn [good] in G. destruct G as (G & _).
    assert (P : place_of st cur j (hd_error (map fst t2 ++ [Code []])) = mkPlace (Some path) x k (src x)).
    { rewrite <- (G j x k N). destruct t2; reflexivity. }
    destruct (search_from_ok own (map fst t1) cur (map fst t2 ++ [Code []]) j st (mkLoc SIZE_MAX 0 FIRST_LINE FIRST_SYMBOL)) as (loc & R & S).
    - assert (F1 : Forall proper (map fst tls)) by (rewrite Forall_map; eapply Forall_impl; [|exact F]; intros ? [Q _]; exact Q). rewrite T, map_app in F1. cbn [map fst] in F1.
      apply Forall_app in F1 as [F1 F2]. apply Forall_app. split; [exact F1|]. inversion F2; subst. constructor; auto. apply Forall_app. split; auto. constructor; [|constructor]. apply proper_code; [constructor|cbn; lia].
    - exact W.
    - lia.
    - rewrite <- D. lia.
    - apply anchored_start.
    - rewrite <- D, <- A in R. rewrite <- D, P in S. exists loc. split; [|exact S]. unfold loc_search. rewrite <- R. f_equal. f_equal. rewrite !zlen_unf, map_length. reflexivity.
  Qed.
End File.

(** ** What is printed *)
Lemma visible_app a b : visible (a ++ b) = visible a ++ visible b.
Proof. apply flat_map_app. Qed.
Lemma visible_bare bs : visible (bare bs) = [].
Proof. induction bs; [reflexivity|exact IHbs]. Qed.
Lemma shown_app a b : shown_contents (a ++ b) = shown_contents a ++ shown_contents b.
Proof. apply flat_map_app. Qed.
Lemma put_visible t c : plain_char c -> visible (put (Some t) c) = shown_contents [(c, t)].
Proof.
  intros [E _]. unfold put. rewrite (to_string_ok c E). cbn [shown_contents flat_map]. rewrite app_nil_r.
  assert (B : exists b bs, Utf8Spec.enc c = b :: bs /\ is_space b = is_space c).
  { unfold Utf8Spec.enc, is_space. pose proof E as E'. unfold encodable in E'. destruct (c <? 128) eqn:C; [eauto|]. destruct (c <? 2048) eqn:C2; [|destruct (c <? 65536) eqn:C3]; eexists _, _; (split; [reflexivity|]).
    all: assert (0 <= c / 64 /\ 0 <= c / 4096 /\ 0 <= c / 262144) by (repeat split; apply Z.div_pos; lia); lia. }
  destruct B as (b & bs & -> & B). cbn [visible flat_map hd]. fold (visible (bare bs)). rewrite visible_bare, app_nil_r, B. reflexivity.
Qed.
Lemma copy_visible x cs : Forall plain_char cs -> forall k, visible (copy x k cs) = shown_contents (columns x k cs).
Proof.
  induction 1 as [|c cs C _ IH]; intros k; [reflexivity|]. cbn [copy columns]. rewrite visible_app, put_visible, IH by exact C.
  change (columns x k (c :: cs)) with ([(c, (x, k))] ++ columns x (k + 1) cs). rewrite <- shown_app. reflexivity.
Qed.
Lemma flat_visible t cs : Forall plain_char cs -> visible (flat_map (put (Some t)) cs) = shown_contents (map (fun ch => (ch, t)) cs).
Proof. induction 1 as [|c cs C _ IH]; [reflexivity|]. cbn [flat_map map]. rewrite visible_app, put_visible, IH by exact C. rewrite <- shown_app. reflexivity. Qed.
Lemma replacement_visible x k lines : Forall (fun r => Forall plain_char r /\ hd 0 r <> 35) lines ->
  visible (replacement x k lines) = shown_contents (map (fun ch => (ch, (x, k))) (concat lines)).
Proof.
  induction 1 as [|r lines [P _] F IH]; [reflexivity|]. cbn [concat]. rewrite map_app, shown_app. destruct lines as [|r2 lines].
  - cbn [replacement concat map]. rewrite flat_visible by exact P. symmetry. apply app_nil_r.
  - change (replacement x k (r :: r2 :: lines)) with (flat_map (put (Some (x, k))) r ++ bare [10] ++ replacement x k (r2 :: lines)).
    rewrite !visible_app, flat_visible, IH by exact P. rewrite visible_bare. reflexivity.
Qed.
Lemma blank_shown x cs : blanks_only cs -> forall k, shown_contents (columns x k cs) = [].
Proof.
  induction 1 as [|c cs C _ IH]; intros k; [reflexivity|]. cbn [columns]. change ((c, (x, k)) :: columns x (k + 1) cs) with ([(c, (x, k))] ++ columns x (k + 1) cs).
  rewrite shown_app, IH. cbn. destruct C as [-> | ->]; reflexivity.
Qed.
Lemma columns_app x a : forall k b, columns x k (a ++ b) = columns x k a ++ columns x (k + zlen a) b.
Proof.
  induction a as [|c a IH]; intros k b; cbn [app columns]; [rewrite Z.add_0_r; reflexivity|]. rewrite IH, zlen_cons. f_equal. f_equal. f_equal. lia.
Qed.
Lemma calls_visible own d calls : Forall proper_call calls -> forall loc pos x k o req loc', emit_calls own d loc pos x k calls = Some (o, req, loc') ->
  visible o = shown_contents (of_calls x k calls).
Proof.
  induction 1 as [|[name lines aft] calls PC F IH]; intros loc pos x k o req loc' E; cbn [emit_calls of_calls] in *; [injection E as <- _ _; reflexivity|].
  destruct PC as (_ & _ & PA & _ & PL & _). cbn [c_lines c_name c_after] in *.
  destruct (loc_update_begin own (mkIn d pos) loc) as [[mark loc1]|]; [|discriminate]. cbn [bind] in E.
  pose proof (skip_blanks_app aft) as SB. destruct (skip_blanks aft) as [blanks aft']. destruct SB as [-> BB]. apply Forall_app in PA as [_ PA].
  rewrite !shown_app, columns_app, shown_app, (blank_shown x blanks BB). cbn [app].
  assert (V : visible (bare [10] ++ bare mark ++ replacement x k lines ++ flat_map (put None) blanks) = shown_contents (map (fun ch => (ch, (x, k))) (concat lines))).
  { rewrite !visible_app, !visible_bare, put_blanks, visible_bare, replacement_visible by auto. apply app_nil_r. }
  destruct (match aft', calls with [], [] => true | _, _ => false end) eqn:LAST.
  - destruct aft'; [|discriminate]. destruct calls; [|discriminate]. injection E as <- _ _. transitivity (visible (bare [10] ++ bare mark ++ replacement x k lines ++ flat_map (put None) blanks)); [reflexivity|]. rewrite V. symmetry. apply app_nil_r.
  - assert (E2 : (do ' (mark0, loc2) <- loc_update_end own (mkIn d (pos + size name + size blanks)) loc1;
      let k0 := k + zlen name + zlen blanks in
      do ' (rest, required, loc3) <- emit_calls own d loc2 (pos + size name + size blanks + size aft') x (k0 + zlen aft') calls;
      Some ((bare [10] ++ bare mark ++ replacement x k lines ++ flat_map (put None) blanks) ++ bare [10] ++ bare mark0 ++ copy x k0 aft' ++ rest, required, loc3)) = Some (o, req, loc'))
      by (destruct aft'; [destruct calls; [discriminate|]|]; exact E).
    clear E. revert V E2. generalize (bare [10] ++ bare mark ++ replacement x k lines ++ flat_map (put None) blanks). intros printed V E2. destruct (loc_update_end own _ loc1) as [[mark2 loc2]|]; [|discriminate]. cbn [bind] in E2. cbv zeta in E2.
    destruct (emit_calls own d loc2 _ x _ calls) as [[[rest required] loc3]|] eqn:EC; [|discriminate]. cbn [bind] in E2. injection E2 as <- <- <-.
    rewrite (visible_app printed), V. apply f_equal. transitivity (visible (bare [10] ++ bare mark2 ++ copy x (k + zlen name + zlen blanks) aft' ++ rest)); [reflexivity|]. rewrite !visible_app, !visible_bare, copy_visible by exact PA. cbn [app]. f_equal.
    rewrite (IH _ _ _ _ _ _ _ EC). rewrite zlen_app, !Z.add_assoc. reflexivity.
Qed.
Lemma empty_shown s : is_empty s = true -> s_calls s = [] /\ blanks_only (s_first s).
Proof.
  unfold is_empty. pose proof (skip_blanks_app (s_first s)) as SB. destruct (skip_blanks (s_first s)) as [a [|]]; [|discriminate].
  destruct SB as [-> B]. rewrite app_nil_r. destruct (s_calls s); [auto|discriminate].
Qed.
Lemma lines_visible own d rest : Forall proper_sline rest -> forall loc pos x req buffer o, visible buffer = [] -> emit_lines own d loc pos x req buffer rest = Some o ->
  visible o = shown_contents (contents x rest).
Proof.
  induction 1 as [|s rest PS F IH]; intros loc pos x req buffer o B E; cbn [emit_lines contents] in *; [injection E as <-; reflexivity|].
  destruct (if req then _ else _) as [[mark loc1]|]; [|discriminate]. cbn [bind] in E.
  assert (B1 : visible (if req then bare mark else buffer) = []) by (destruct req; [apply visible_bare|exact B]).
  set (buffer1 := if req then bare mark else buffer) in *. clearbody buffer1.
  destruct PS as (P1 & _ & P2). rewrite !shown_app. destruct (is_empty s) eqn:EM.
  - apply empty_shown in EM as [C BL]. apply IH in E.
    + rewrite E, C, blank_shown by exact BL. reflexivity.
    + rewrite !visible_app, B1, visible_bare, copy_visible, blank_shown by auto. reflexivity.
  - destruct (emit_calls own d loc1 _ x _ (s_calls s)) as [[[printed req2] loc2]|] eqn:EC; [|discriminate]. cbn [bind] in E.
    destruct (emit_lines own d _ _ (x + 1) req2 [] rest) as [o2|] eqn:EL; [|discriminate]. cbn [bind] in E. injection E as <-.
    transitivity (visible (buffer1 ++ copy x 1 (s_first s) ++ printed ++ bare [10] ++ o2)); [reflexivity|]. rewrite !visible_app, B1, visible_bare, copy_visible by auto. cbn [app]. rewrite (calls_visible _ _ _ P2 _ _ _ _ _ _ _ EC), (IH _ _ _ _ [] _ eq_refl EL). reflexivity.
Qed.

(** C13, C14, C15: the ordered tree. *)
From Verif Require Import Prelude LVec TreeModel TreeSpec TreeRun TreeShape TreeProofs TreeSteps.
From Coq Require Import List.
Local Open Scope Z_scope.

(** C13.  After any calls every further call ends, and answers and changes the tree
    as [tspec] says. *)
Theorem C13_tree_is_an_ordered_tree : forall nop c t op,
  treach nop c t -> tlegal t op -> fits c op ->
  exists r c' t', tdo nop c op = Some (r, c') /\ tspec t op r t' /\ treach nop c' t'.
Proof.
  intros nop c t op R LG FT. destruct (step_good nop c t op (treach_lay _ _ _ R) FT LG) as (r & c' & D & (t' & S) & _ & _).
  exists r, c', t'. repeat split; auto. econstructor; eauto.
Qed.
Print Assumptions C13_tree_is_an_ordered_tree.

(** What the reading calls say about one node: its children, and its type, number of
    arguments and arguments. *)
Definition kids_read (c : list Z) (n : Z) : list Z := map (fun i => node_get_child c n (Z.of_nat i)) (seq 0 (Z.to_nat (node_get_amount c n))).
Definition same_data (c c' : list Z) (n : Z) : Prop :=
  node_get_type c' n = node_get_type c n /\ node_get_argc c' n = node_get_argc c n /\ forall i, 0 <= i -> node_get_arg c' n i = node_get_arg c n i.

Lemma map_nth_seq (l : list Z) d : map (fun i => nth i l d) (seq 0 (length l)) = l.
Proof.
  induction l as [|x l IH]; [reflexivity|]. cbn [length seq map nth]. f_equal. rewrite <- seq_shift, map_map. cbn [nth]. exact IH.
Qed.
Lemma kids_read_of c t n : lay c t -> small c -> node_of t n -> kids_read c n = t_kids t n.
Proof.
  intros L SM N. unfold kids_read. rewrite (amount_of c t L SM n N), zlen_length, Nat2Z.id. transitivity (map (fun i => nth i (t_kids t n) 0) (seq 0 (length (t_kids t n)))); [|apply map_nth_seq].
  apply map_ext_in. intros i I. apply in_seq in I. apply (child_of c t L SM); auto. lia.
Qed.
Lemma same_data_of c t c' t' n : lay c t -> small c -> lay c' t' -> small c' -> node_of t n -> node_of t' n -> t_type t' n = t_type t n -> t_args t' n = t_args t n -> same_data c c' n.
Proof.
  intros L SM L' SM' N N' T A. split; [|split].
  - rewrite (get_type_of c t L SM n N), (get_type_of c' t' L' SM' n N'), T. auto.
  - rewrite (argc_of c t L SM n N), (argc_of c' t' L' SM' n N'), A. auto.
  - intros i I. rewrite (get_arg_of c t L SM n i N I), (get_arg_of c' t' L' SM' n i N' I), A. auto.
Qed.

(** The reading calls give back the tree. *)
Theorem C13_children_read_back : forall nop c t n, treach nop c t -> zlen c < 2 ^ 62 -> node_of t n -> kids_read c n = t_kids t n.
Proof. intros nop c t n R SM N. apply kids_read_of; auto. eapply treach_lay; eauto. Qed.
Print Assumptions C13_children_read_back.

(** Two children, the first with two arguments and a child, the second with one. *)
Definition build : list top :=
  [TAddChild 0 10; TAddArg 5 100; TAddArg 5 101; TAddChild 5 11; TAddChild 0 12; TAddArg 17 102; TAddChild 0 13].
Definition trun (ops : list top) : option (list Z * list Z) :=
  fold_left (fun st op => do ' (rs, c) <- st; do ' (r, c) <- tdo 0 c op; Some (rs ++ [r], c)) ops (Some ([], snd (node_get_root []))).
Definition tree_of (ops : list top) (rs : list Z) : tree := fst (fold_left (fun st op =>
  let '(t, rs) := st in let 'mkTree kids ty args last := t in let r := hd 0 rs in
  (match op with
   | TAddChild n y => mkTree (upd (upd kids n (kids n ++ [r])) r []) (upd ty r y) (upd args r []) (Some r)
   | TAddArg n x => mkTree kids ty (upd args n (args n ++ [x])) last
   | _ => t
   end, tl rs)) ops (t_empty, rs)).

Example C13_example :
  option_map fst (trun (build ++ [TAmount 0; TChild 0 0; TChild 0 1; TChild 0 2; TChild 0 3; TParent 12; TArgc 5; TArg 5 1; TArg 5 2; TType 17; TAddArg 5 7; TNext 12; TNext 23; TLoad 17]))
  = Some [5; 0; 0; 12; 17; 0; 23; 3; 5; 17; 23; SIZE_MAX; 5; 2; 101; ITEM_MAX; 12; -2; 17; SIZE_MAX; 17].
Proof. vm_compute. reflexivity. Qed.

(** The state after [build] is reached, and many calls are legal in it. *)
Definition c_build : list Z := Eval vm_compute in match trun build with Some (_, c) => c | None => [] end.
Definition t_build : tree := tree_of build [5; 0; 0; 12; 17; 0; 23].
Definition results : list Z := [5; 0; 0; 12; 17; 0; 23].
Definition c_at (k : nat) : list Z := match trun (firstn k build) with Some (_, c) => c | None => [] end.
Definition t_at (k : nat) : tree := tree_of (firstn k build) (firstn k results).
Lemma build_reach : treach 0 c_build t_build.
Proof.
  assert (G: forall k op r, treach 0 (c_at k) (t_at k) -> tlegal (t_at k) op -> zlen (c_at k) < 100 -> t_room op = 5 -> tdo 0 (c_at k) op = Some (r, c_at (S k)) -> tspec (t_at k) op r (t_at (S k)) -> treach 0 (c_at (S k)) (t_at (S k))).
  { intros k op r R LG Z RM D S. eapply treach_step; eauto. unfold fits. rewrite RM. lia. }
  assert (F: forall t r l, (forall n, incl (t_kids t n) l) -> ~ In r l -> r <> 0 -> ~ node_of t r).
  { intros t r l H NI NZ B. destruct (below_inv _ _ _ B) as [?|(p & _ & I)]; auto. apply NI. eapply H; eauto. }
  assert (R0: treach 0 (c_at 0) (t_at 0)) by apply treach_new.
  assert (R1: treach 0 (c_at 1) (t_at 1)).
  { apply (G 0%nat (TAddChild 0 10) 5); auto; [constructor|vm_compute; reflexivity|]. split; [|reflexivity]. apply (F _ _ []); [intros n k []|intros []|discriminate]. }
  assert (R2: treach 0 (c_at 2) (t_at 2)).
  { apply (G 1%nat (TAddArg 5 100) 0); auto; [|vm_compute; reflexivity|split; reflexivity]. split; [apply (below_kid _ _ 0); [constructor|left; reflexivity]|left; reflexivity]. }
  assert (R3: treach 0 (c_at 3) (t_at 3)).
  { apply (G 2%nat (TAddArg 5 101) 0); auto; [|vm_compute; reflexivity|split; reflexivity]. split; [apply (below_kid _ _ 0); [constructor|left; reflexivity]|left; reflexivity]. }
  assert (R4: treach 0 (c_at 4) (t_at 4)).
  { apply (G 3%nat (TAddChild 5 11) 12); auto; [apply (below_kid _ _ 0); [constructor|left; reflexivity]|vm_compute; reflexivity|]. split; [|reflexivity].
    apply (F _ _ [5]); [|cbn; intuition discriminate|discriminate]. intros n k. cbn. unfold upd. destruct (n =? 5); [intros []|]. destruct (n =? 0); cbn; intuition. }
  assert (R5: treach 0 (c_at 5) (t_at 5)).
  { apply (G 4%nat (TAddChild 0 12) 17); auto; [constructor|vm_compute; reflexivity|]. split; [|reflexivity].
    apply (F _ _ [5; 12]); [|cbn; intuition discriminate|discriminate]. intros n k. cbn. unfold upd. destruct (n =? 12); [intros []|]. destruct (n =? 5); [cbn; intuition|]. destruct (n =? 0); cbn; intuition. }
  assert (R6: treach 0 (c_at 6) (t_at 6)).
  { apply (G 5%nat (TAddArg 17 102) 0); auto; [|vm_compute; reflexivity|split; reflexivity]. split; [apply (below_kid _ _ 0); [constructor|right; left; reflexivity]|left; reflexivity]. }
  change (treach 0 (c_at 7) (t_at 7)). apply (G 6%nat (TAddChild 0 13) 23); auto; [constructor|vm_compute; reflexivity|]. split; [|reflexivity].
  apply (F _ _ [5; 12; 17]); [|cbn; intuition discriminate|discriminate].
  intros n k. cbn. unfold upd. destruct (n =? 17); [intros []|]. destruct (n =? 0); [cbn; intuition|]. destruct (n =? 12); [intros []|]. destruct (n =? 5); [cbn; intuition|]. cbn; intuition.
Qed.
Example C13_example_reach : treach 0 c_build t_build /\ tlegal t_build (TAddChild 17 9) /\ fits c_build (TAddChild 17 9) /\ tlegal t_build (TAddArg 23 9) /\ tlegal t_build (TAddArg 5 9)
  /\ t_kids t_build 0 = [5; 17; 23] /\ t_kids t_build 5 = [12] /\ t_args t_build 5 = [100; 101].
Proof.
  assert (K: forall k, In k [5; 17; 23] -> node_of t_build k) by (intros k I; apply (below_kid _ _ 0); [constructor|exact I]).
  split; [apply build_reach|]. split; [cbn [tlegal]; apply K; cbn; auto|]. split; [unfold fits; assert (zlen c_build = 26) as -> by (vm_compute; reflexivity); cbn [t_room]; lia|].
  split; [split; [apply K; cbn; auto|left; reflexivity]|].
  split; [split; [apply K; cbn; auto|right; intros X; vm_compute in X; discriminate X]|].
  split; [reflexivity|split; reflexivity].
Qed.

(** C14.  Exchanging two nodes neither of which contains the other: every node keeps
    its data, and its children but for the two names exchanged. *)
Theorem C14_swap_exchanges_two_subtrees : forall nop c t a b,
  treach nop c t -> zlen c < 2 ^ 61 -> node_of t a -> node_of t b -> ~ below (t_kids t) a b -> ~ below (t_kids t) b a ->
  exists c', node_swap c a b = Some (0, c')
    /\ forall n, node_of t n -> same_data c c' n /\ kids_read c' n = map (exch a b) (kids_read c n).
Proof.
  intros nop c t a b R SM A B AB BA. pose proof (treach_lay _ _ _ R) as L.
  destruct (step_good nop c t (TSwap a b) L) as (r & c' & D & (t' & S) & LY & ZL); [unfold fits; cbn [t_room]; lia|repeat split; auto|]. specialize (LY t' S).
  assert (SC: small c) by (unfold small; lia). cbn [tdo] in D.
  destruct (proj1 (spec_of t _ _ _) S) as [-> ->]. exists c'. split; auto. intros n N.
  assert (small c') as SC' by (unfold small; cbn [t_room] in ZL; lia).
  assert (node_of (mkTree (fun m => map (exch a b) (t_kids t m)) (t_type t) (t_args t) (t_last t)) n) as N' by (apply (swap_below (t_kids t) a b (l_shape _ _ L)); auto).
  split; [apply (same_data_of c t c' _ n L SC LY SC' N N'); reflexivity|]. rewrite (kids_read_of _ _ _ LY SC' N'), (kids_read_of _ _ _ L SC N). reflexivity.
Qed.
Print Assumptions C14_swap_exchanges_two_subtrees.

(** Removing a node takes it and what is below it out of the tree; every other node
    keeps its data, and its children but for the one removed. *)
Theorem C14_remove_deletes_one_subtree : forall nop c t n,
  treach nop c t -> zlen c < 2 ^ 61 -> node_of t n -> n <> 0 ->
  exists c', node_remove c n = Some (0, c') /\ zlen c' <= zlen c
    /\ forall m, node_of t m -> ~ below (t_kids t) n m -> same_data c c' m /\ kids_read c' m = filter (fun k => negb (k =? n)) (kids_read c m).
Proof.
  intros nop c t n R SM N NZ. pose proof (treach_lay _ _ _ R) as L. assert (SC: small c) by (unfold small; lia).
  destruct (remove_whole c t L n SC N NZ) as (c' & D & LY & ZL). exists c'. split; auto. split; auto. intros m M NB.
  assert (SC': small c') by (unfold small; lia).
  assert (node_of (TreeCut.t_rem t n) m) as M' by (apply (rem_below_iff (t_kids t) n (l_shape _ _ L)); auto).
  split; [apply (same_data_of c t c' _ m L SC LY SC' M M'); reflexivity|]. rewrite (kids_read_of _ _ _ LY SC' M'), (kids_read_of _ _ _ L SC M). reflexivity.
Qed.
Print Assumptions C14_remove_deletes_one_subtree.

(** Inserting above a node gives a new node in its place with that one child. *)
Theorem C14_insert_puts_a_node_above : forall nop c t n ty argc,
  treach nop c t -> zlen c + argc < 2 ^ 61 -> node_of t n -> n <> 0 -> 0 <= argc ->
  exists r c', node_insert c n ty argc = Some (r, c') /\ ~ node_of t r /\ node_get_type c' r = ty /\ node_get_argc c' r = argc /\ kids_read c' r = [n]
    /\ forall m, node_of t m -> same_data c c' m /\ kids_read c' m = map (put n r) (kids_read c m).
Proof.
  intros nop c t n ty argc R SM N NZ AC. pose proof (treach_lay _ _ _ R) as L. assert (SC: small c) by (unfold small; lia).
  destruct (step_good nop c t (TInsert n ty argc) L) as (r & c' & D & (t' & S) & LY & ZL); [unfold fits; cbn [t_room]; lia|repeat split; auto|]. specialize (LY t' S).
  cbn [tdo] in D. destruct (proj1 (spec_of t _ _ _) S) as [FR ->]. exists r, c'. split; auto. split; [exact FR|].
  assert (SC': small c') by (unfold small; cbn [t_room] in ZL; lia).
  assert (NB: forall m, node_of (mkTree (upd (fun m => map (put n r) (t_kids t m)) r [n]) (upd (t_type t) r ty) (upd (t_args t) r (repeat 0 (Z.to_nat argc))) (Some r)) m <-> node_of t m \/ m = r) by (intros m; apply (ins_below (t_kids t) n r N NZ FR)).
  pose proof (proj2 (NB r) (or_intror eq_refl)) as NR. assert (r <> 0) as RZ by (intros ->; apply FR; constructor).
  split; [rewrite (get_type_of _ _ LY SC' r NR); cbn [t_type]; unfold upd; rewrite Z.eqb_refl; destruct (r =? 0) eqn:?; [lia|auto]|].
  split; [rewrite (argc_of _ _ LY SC' r NR); cbn [t_args]; unfold upd; rewrite Z.eqb_refl, zlen_repeat; lia|].
  split; [rewrite (kids_read_of _ _ _ LY SC' NR); cbn [t_kids]; unfold upd; rewrite Z.eqb_refl; auto|].
  intros m M. assert (m <> r) as MR by (intros ->; auto). pose proof (proj2 (NB m) (or_introl M)) as M'.
  split; [apply (same_data_of c t c' _ m L SC LY SC' M M'); cbn [t_type t_args]; unfold upd; destruct (m =? r) eqn:?; auto; lia|].
  rewrite (kids_read_of _ _ _ LY SC' M'), (kids_read_of _ _ _ L SC M). cbn [t_kids]. unfold upd. destruct (m =? r) eqn:?; auto; lia.
Qed.
Print Assumptions C14_insert_puts_a_node_above.

(** [node_order] renames two nodes in place: each takes the place and the children
    of the other, and keeps its data. *)
Theorem C14_order_trades_places : forall nop c t a b,
  treach nop c t -> zlen c < 2 ^ 61 -> node_of t a -> node_of t b -> ~ below (t_kids t) a b -> ~ below (t_kids t) b a ->
  exists c', node_order c a b = Some (0, c')
    /\ forall n, node_of t n -> same_data c c' n /\ kids_read c' n = map (exch a b) (kids_read c (exch a b n)).
Proof.
  intros nop c t a b R SM A B AB BA. pose proof (treach_lay _ _ _ R) as L. assert (SC: small c) by (unfold small; lia).
  destruct (step_good nop c t (TOrder a b) L) as (r & c' & D & (t' & S) & LY & ZL); [unfold fits; cbn [t_room]; lia|repeat split; auto|]. specialize (LY t' S).
  cbn [tdo] in D. destruct (proj1 (spec_of t _ _ _) S) as [-> ->]. exists c'. split; auto. intros n N. assert (SC': small c') by (unfold small; cbn [t_room] in ZL; lia).
  destruct (swap_nz (t_kids t) a b A B AB BA) as (AZ & BZ & NE).
  assert (node_of t (exch a b n)) as NX by (unfold exch; destruct (n =? a), (n =? b); auto).
  assert (node_of (mkTree (fun m => map (exch a b) (t_kids t (exch a b m))) (t_type t) (t_args t) (t_last t)) n) as N' by (apply (ord_below0 (t_kids t) a b AZ BZ); auto).
  split; [apply (same_data_of c t c' _ n L SC LY SC' N N'); reflexivity|]. rewrite (kids_read_of _ _ _ LY SC' N'), (kids_read_of _ _ _ L SC NX). reflexivity.
Qed.
Print Assumptions C14_order_trades_places.

(** [node_set_child] takes a node from where it is and makes it the last child of
    another. *)
Theorem C14_set_child_moves_one_subtree : forall nop c t p n,
  treach nop c t -> zlen c < 2 ^ 61 -> node_of t p -> node_of t n -> n <> 0 -> ~ below (t_kids t) n p ->
  exists c', node_set_child c nop p n = Some c'
    /\ forall m, node_of t m -> same_data c c' m /\ kids_read c' m = filter (fun k => negb (k =? n)) (kids_read c m) ++ (if m =? p then [n] else []).
Proof.
  intros nop c t p n R SM P N NZ NP. pose proof (treach_lay _ _ _ R) as L. assert (SC: small c) by (unfold small; lia).
  destruct (step_good nop c t (TMove p n) L) as (r & c' & D & (t' & S) & LY & ZL); [unfold fits; cbn [t_room]; lia|repeat split; auto|]. specialize (LY t' S).
  cbn [tdo] in D. destruct (proj1 (spec_of t _ _ _) S) as (-> & f & -> & F). destruct (node_set_child c nop p n) as [c2|] eqn:E; [|discriminate D]. cbn [bind] in D. injection D as ->.
  exists c'. split; auto. intros m M. assert (SC': small c') by (unfold small; cbn [t_room] in ZL; lia).
  (* every old node is still there *)
  assert (STAY: forall m, node_of t m -> ~ below (t_kids t) n m -> below f 0 m).
  { induction 1 as [|q k Q IH I]; intros NB; [constructor|]. apply (below_kid _ _ q); [apply IH; intros X; apply NB; econstructor; eauto|]. rewrite F by exact Q. apply in_or_app. left. apply filter_In. split; auto.
    destruct (k =? n) eqn:X; auto. exfalso. apply NB. replace k with n by lia. constructor. }
  assert (NN: below f 0 n). { apply (below_kid _ _ p); [apply STAY; auto|]. rewrite F by exact P. apply in_or_app. right. rewrite Z.eqb_refl. left. auto. }
  assert (ALL: forall m, node_of t m -> node_of (mkTree f (t_type t) (t_args t) None) m).
  { induction 1 as [|q k Q IH I]; [constructor|]. destruct (Z.eq_dec k n) as [->|KN]; [exact NN|]. apply (below_kid _ _ q); [exact IH|]. cbn [t_kids]. rewrite F by exact Q. apply in_or_app. left. apply filter_In. split; auto. destruct (k =? n) eqn:X; auto. lia. }
  pose proof (ALL m M) as M'. split; [apply (same_data_of c t c' _ m L SC LY SC' M M'); reflexivity|].
  rewrite (kids_read_of _ _ _ LY SC' M'), (kids_read_of _ _ _ L SC M). cbn [t_kids]. apply F. exact M.
Qed.
Print Assumptions C14_set_child_moves_one_subtree.

(** Adjacent brothers 5 and 17; 5 and 17 traded; 17 made a child of 12; 5 removed. *)
Definition shape_of (c : list Z) (ns : list Z) : list (Z * list Z) := map (fun n => (n, kids_read c n)) ns.
Example C14_example :
  option_map (fun p => shape_of (snd p) [0; 5; 17]) (trun (build ++ [TSwap 5 17])) = Some [(0, [17; 5; 23]); (5, [12]); (17, [])]
  /\ option_map (fun p => shape_of (snd p) [0; 5; 17]) (trun (build ++ [TOrder 5 17])) = Some [(0, [17; 5; 23]); (5, []); (17, [12])]
  /\ option_map (fun p => shape_of (snd p) [0; 5; 12; 17]) (trun (build ++ [TMove 12 17])) = Some [(0, [5; 23]); (5, [12]); (12, [17]); (17, [])]
  /\ option_map (fun p => shape_of (snd p) [0; 17; 23]) (trun (build ++ [TRemove 5])) = Some [(0, [17; 23]); (17, []); (23, [])]
  /\ option_map (fun p => shape_of (snd p) [0; 28; 17]) (trun (build ++ [TInsert 17 50 2])) = Some [(0, [5; 28; 23]); (28, [17]); (17, [])].
Proof. vm_compute. repeat split. Qed.
Lemma build_kid k : In k [5; 17; 23] -> node_of t_build k.
Proof. intros I. apply (below_kid _ _ 0); [constructor|exact I]. Qed.
Local Opaque t_build.
Example C14_example_reach : treach 0 c_build t_build /\ zlen c_build < 2 ^ 61 /\ node_of t_build 5 /\ node_of t_build 17 /\ ~ below (t_kids t_build) 5 17 /\ ~ below (t_kids t_build) 17 5.
Proof.
  assert (K5: t_kids t_build 5 = [12]) by (vm_compute; reflexivity). assert (K12: t_kids t_build 12 = []) by (vm_compute; reflexivity). assert (K17: t_kids t_build 17 = []) by (vm_compute; reflexivity).
  assert (Q: forall m, below (t_kids t_build) 5 m -> m = 5 \/ m = 12). { induction 1 as [|m k B [-> | ->] I]; auto; [rewrite K5 in I; destruct I as [<-|[]]; auto|rewrite K12 in I; contradiction]. }
  assert (Q2: forall m, below (t_kids t_build) 17 m -> m = 17). { induction 1 as [|m k B -> I]; auto. rewrite K17 in I. contradiction. }
  split; [apply build_reach|]. split; [vm_compute; reflexivity|]. split; [apply build_kid; cbn; auto|]. split; [apply build_kid; cbn; auto|].
  split; intros B; [apply Q in B; lia|apply Q2 in B; lia].
Qed.

(** Of a node and one inside it the call makes a loop: it reports success, and node 5
    becomes a child of itself. *)
Theorem C14_swap_with_a_descendant_refuted :
  option_map (fun p => (fst p, shape_of (snd p) [0; 5])) (trun (build ++ [TSwap 5 12]))
  = Some ([5; 0; 0; 12; 17; 0; 23; 0], [(0, [12; 17; 23]); (5, [5])]).
Proof. vm_compute. reflexivity. Qed.
Print Assumptions C14_swap_with_a_descendant_refuted.

(** An argument added to a node without children that is not the one made last is
    written over another node: the count of 5 goes up, and its "argument" is the link
    of the node after it. *)
Theorem C13_argument_of_an_older_node_refuted :
  option_map fst (trun [TAddChild 0 10; TAddChild 0 11; TAddArg 5 77; TArgc 5; TArg 5 0; TSetArg 5 1 99; TType 10; TAddArg 5 78; TArg 5 1; TSetArg 5 1 99; TType 10])
  = Some [5; 10; 0; 1; 0; -1; 11; 0; 11; 0; 99].
Proof. vm_compute. reflexivity. Qed.
Print Assumptions C13_argument_of_an_older_node_refuted.

(** C15.  There is a list of the nodes in pre-order, each node is in it once, it
    begins with the root, and "next" leads along it to its end and no further. *)
Theorem C15_preorder_visits_every_node_once : forall nop c t,
  treach nop c t -> zlen c < 2 ^ 62 -> t_kids t 0 <> [] ->
  exists l, walk (t_kids t) 0 l /\ NoDup l /\ (forall n, In n l <-> node_of t n) /\ hd_error l = Some 0
    /\ forall before n after, l = before ++ n :: after -> node_get_next c n = Some (hd SIZE_MAX after).
Proof.
  intros nop c t R SM NE. pose proof (treach_lay _ _ _ R) as L. destruct (walk_ex (t_kids t) 0 (sh_fin _ (l_shape _ _ L))) as (l & W). exists l.
  split; [exact W|]. split; [apply (walk_nodup _ (l_shape _ _ L) 0 l W); constructor|]. split; [apply (walk_In _ _ _ W)|]. split; [destruct (walk_hd _ _ _ W) as (l' & ->); reflexivity|].
  intros b n a ->. apply (next_of c t L SM n b a NE W).
Qed.
Print Assumptions C15_preorder_visits_every_node_once.

Definition chain (c : list Z) (k : nat) (n : Z) : list Z := map (fun i => Nat.iter i (fun n => match node_get_next c n with Some m => m | None => 0 end) n) (seq 0 k).
Example C15_example : chain c_build 7 0 = [0; 5; 12; 17; 23; SIZE_MAX; SIZE_MAX] /\ t_kids t_build 0 = [5; 17; 23].
Proof. vm_compute. split; reflexivity. Qed.

(** Asked of a tree that is only a root, "next" gives a node that is not broken and
    not in the tree. *)
Theorem C15_next_of_a_lone_root_refuted : node_get_next (snd (node_get_root [])) 0 = Some ITEM_MAX /\ node_is_correct ITEM_MAX = true /\ ~ node_of t_empty ITEM_MAX.
Proof.
  split; [vm_compute; reflexivity|]. split; [reflexivity|]. intros B. destruct (below_inv _ _ _ B) as [X|(p & _ & [])]. discriminate X.
Qed.
Print Assumptions C15_next_of_a_lone_root_refuted.

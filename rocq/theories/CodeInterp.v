(** Running examples: the machine for a number of steps and an interpreter of
    statements, both sound for the relations of VmSpec.v and CodeSpec.v. *)
From Verif Require Import Prelude TypesModel TypesSpec LexModel ParseModel InstrModel BuildModel CodeModel VmSpec CodeSpec.

(** The machine after [n] instructions, for computing examples. *)
Fixpoint after (w : Z -> Z) (lay : layout) (C : list Z) (n : nat) (s : vm) : option vm :=
  match n with O => Some s | S n => do s <- step w lay C s; after w lay C n s end.
Lemma after_runs w lay C n : forall s t, after w lay C n s = Some t -> runs w lay C s t.
Proof.
  induction n as [|n IH]; intros s t; cbn; [intros [= ->]; constructor|].
  destruct (step w lay C s) as [u|] eqn:S; cbn; [|discriminate]. intros H. econstructor; eauto.
Qed.
(** An interpreter, to compute examples of executions. *)
Section Interpreter.
Variable w : Z -> Z.
Variable at_ : Z -> Z.
Definition left (o : outcome) : outcome := match o with OBreak => ONext | _ => o end.
Fixpoint run_decls (ds : list decl) (m : cells) : option cells :=
  match ds with
  | [] => Some m
  | DStruct _ _ :: ds | DVar _ _ None :: ds => run_decls ds m
  | DVar id _ (Some x) :: ds => do ' (v, m) <- value_of w at_ x m; run_decls ds (store m (at_ id) v)
  end.
Fixpoint run (n : nat) (s : stmt) (m : cells) {struct n} : option (outcome * cells) :=
  match n with
  | O => None
  | S n =>
    match s with
    | SDecl ds => do m <- run_decls ds m; Some (ONext, m)
    | SCase _ s | SDefault s => run n s m
    | SCompound ss => run_all n ss m
    | SExpr x => do ' (_, m) <- value_of w at_ x m; Some (ONext, m)
    | SNull => Some (ONext, m)
    | SIf x s other =>
        do ' (v, m) <- value_of w at_ x m;
        if v =? 0 then match other with Some s => run n s m | None => Some (ONext, m) end else run n s m
    | SSwitch x (SCompound ss) =>
        do ' (v, m) <- value_of w at_ x m; do ' (o, m) <- run_all n (select v ss) m; Some (left o, m)
    | SSwitch _ _ => None
    | SWhile x body =>
        do ' (v, m) <- value_of w at_ x m;
        if v =? 0 then Some (ONext, m)
        else do ' (o, m) <- run n body m; if stays o then run n (SWhile x body) m else Some (left o, m)
    | SDo body x =>
        do ' (o, m) <- run n body m;
        if stays o then do ' (v, m) <- value_of w at_ x m; if v =? 0 then Some (ONext, m) else run n (SDo body x) m
        else Some (left o, m)
    | SFor None c next body => run_for n c next body m
    | SFor (Some s) c next body => do ' (o, m) <- run n s m; match o with ONext => run_for n c next body m | _ => None end
    | SContinue => Some (OContinue, m)
    | SBreak => Some (OBreak, m)
    | SReturn None => Some (OReturn None, m)
    | SReturn (Some x) => do ' (v, m) <- value_of w at_ x m; Some (OReturn (Some v), m)
    end
  end
with run_all (n : nat) (ss : list stmt) (m : cells) {struct n} : option (outcome * cells) :=
  match n with
  | O => None
  | S n =>
    match ss with
    | [] => Some (ONext, m)
    | s :: ss => do ' (o, m) <- run n s m; match o with ONext => run_all n ss m | _ => Some (o, m) end
    end
  end
with run_for (n : nat) (c next : option node) (body : stmt) (m : cells) {struct n} : option (outcome * cells) :=
  match n with
  | O => None
  | S n =>
    do ' (v, m) <- match c with Some x => value_of w at_ x m | None => Some (1, m) end;
    if v =? 0 then Some (ONext, m)
    else
      do ' (o, m) <- run n body m;
      if stays o then
        do ' (_, m) <- match next with Some x => value_of w at_ x m | None => Some (1, m) end;
        run_for n c next body m
      else Some (left o, m)
  end.

Lemma run_decls_sound ds : forall m m', run_decls ds m = Some m' -> exec_decls w at_ ds m m'.
Proof.
  induction ds as [|[id bounds [i|]|t ms] ds IH]; intros m m'; cbn [run_decls].
  - intros [= ->]. constructor.
  - destruct (value_of w at_ i m) as [[v m1]|] eqn:E; cbn; [|discriminate]. intros H. econstructor; eauto.
  - intros H. constructor. auto.
  - intros H. constructor. auto.
Qed.
Ltac cases H :=
  repeat (cbn [bind] in H;
    match type of H with
    | bind ?o _ = Some _ => let E := fresh "E" in destruct o as [[]|] eqn:E; cbn [bind] in H; [|discriminate H]
    | (if ?v =? 0 then _ else _) = Some _ => let E := fresh "E" in destruct (v =? 0) eqn:E; [apply Z.eqb_eq in E; subst v|apply Z.eqb_neq in E]
    | (if stays ?o then _ else _) = Some _ => let E := fresh "E" in destruct (stays o) eqn:E
    | Some _ = Some _ => injection H; clear H; intros; subst
    end).
Lemma run_sound n :
  (forall s m o m', run n s m = Some (o, m') -> exec w at_ s m o m')
  /\ (forall ss m o m', run_all n ss m = Some (o, m') -> exec_all w at_ ss m o m')
  /\ (forall c next body m o m', run_for n c next body m = Some (o, m') -> exec_for w at_ c next body m o m').
Proof.
  induction n as [|n (IS & IA & IF)]; [repeat split; discriminate|]. split; [|split].
  - intros s m o m' H. destruct s; cbn [run] in H; try discriminate H.
    + destruct (run_decls ds m) eqn:E; [|discriminate]. cases H. constructor. apply run_decls_sound. assumption.
    + constructor. auto.
    + constructor. auto.
    + constructor. auto.
    + cases H. econstructor; eauto.
    + cases H. constructor.
    + cases H; [destruct other; [eapply ex_else; eauto|cases H; apply ex_skip; auto]|eapply ex_then; eauto].
    + destruct s; try discriminate H. cases H. eapply ex_switch; eauto.
    + cases H; [apply ex_while_end; auto|eapply ex_while_again; eauto|eapply ex_while_leave; eauto].
    + cases H; [eapply ex_do_end; eauto|eapply ex_do_again; eauto|eapply ex_do_leave; eauto].
    + destruct init; [|constructor; auto]. cases H. destruct o0; try discriminate H. econstructor; eauto.
    + cases H. constructor.
    + cases H. constructor.
    + destruct e; cases H; econstructor; eauto.
  - intros ss m o m' H. destruct ss as [|s ss]; cbn [run_all] in H; [cases H; constructor|].
    cases H. destruct o0; [eapply ex_cons; eauto|cases H; eapply ex_jump; eauto; discriminate..].
  - intros c next body m o m' H. cbn [run_for] in H.
    destruct c as [x|].
    + cases H; [apply ex_for_end; auto| |eapply ex_for_leave; eauto].
      eapply ex_for_again; eauto. destruct next; [eauto|congruence].
    + cbn [bind] in H. change (1 =? 0) with false in H. cbn iota in H. cases H; [|eapply ex_for_leave; eauto; reflexivity].
      eapply ex_for_again with (m1 := m) (m3 := c0); [reflexivity|eauto|eauto| |eauto]. destruct next; [eauto|congruence].
Qed.
End Interpreter.
Lemma execution w at_ n s m o (P : cells -> Prop) :
  match run w at_ n s m with Some (o', m') => o' = o /\ P m' | None => False end -> exists m', exec w at_ s m o m' /\ P m'.
Proof.
  destruct (run w at_ n s m) as [[o' m']|] eqn:E; [|intros []]. intros [-> H]. exists m'. split; [|exact H]. eapply run_sound; eassumption.
Qed.

(** Stringizing. *)
From Verif Require Import Prelude LexSpec StrzModel StrzSpec.
Local Open Scope Z_scope.

Lemma strz_elements a s : kept a s -> elements 34 (strz_loop a) s.
Proof.
  induction 1 as [|c a s N B K IH|a s K IH|d v a s N E K IH|].
  - constructor.
  - cbn [strz_loop]. destruct (c =? 92) eqn:X; [lia|]. destruct (c =? 34) eqn:Q.
    + assert (c = 34) by lia. subst. cbn [app]. apply el_escape; [constructor|exact IH].
    + cbn [app]. apply el_plain; try lia. exact IH.
  - cbn. apply el_escape; [constructor|]. apply el_escape; [constructor|]. exact IH.
  - cbn [strz_loop]. change (92 =? 92) with true. destruct (d =? 34) eqn:Q; [lia|]. cbn [app]. apply el_escape; assumption.
  - constructor.
Qed.
Lemma strz_quoted a s : kept a s -> quoted (stringize a) s.
Proof. intros K. apply quoted_one. apply strz_elements. exact K. Qed.
Lemma plain_kept a : Forall (fun c => c <> 10 /\ c <> 92) a -> kept a a.
Proof. induction 1 as [|c a [N B] _ IH]; [constructor|apply k_plain; assumption]. Qed.
Lemma strz_unbroken n : forall a, (length a < n)%nat -> unbroken (strz_loop a).
Proof.
  induction n as [|n IH]; [lia|]. intros a L. destruct a as [|c a]; [constructor|]. cbn [strz_loop]. destruct (c =? 92) eqn:X.
  - destruct a as [|d a]; [constructor|]. assert (U : unbroken (strz_loop a)) by (apply IH; cbn in L; lia). destruct (d =? 34) eqn:Q; cbn [app].
    + apply u_escape. apply u_escape. exact U.
    + apply u_escape. exact U.
  - assert (U : unbroken (strz_loop a)) by (apply IH; cbn in L; lia). destruct (c =? 34) eqn:Q; cbn [app].
    + apply u_escape. exact U.
    + apply u_plain; try lia. exact U.
Qed.
Lemma strz_one a : exists body, stringize a = 34 :: body ++ [34] /\ unbroken body.
Proof. exists (strz_loop a). split; [reflexivity|]. apply (strz_unbroken (S (length a))). lia. Qed.

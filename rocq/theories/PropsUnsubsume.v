(** * C43, continued: what unsubsume loses, for states in any order. *)
From Verif Require Import Base Spec SpecTransducer AlignProofs TransProofs StateProofs SubsumeProofs ReadProofs PropsTransducer.
Local Open Scope nat_scope.

(** [thinned alg n before l r]: from [l], behind the positions [before], [r] is left:
    every position is kept, or is dropped and is subsumed by one that was kept before
    it. *)
Inductive thinned (alg : algorithm) (n : N) : state -> state -> state -> Prop :=
| thinned_nil : forall before, thinned alg n before [] []
| thinned_keep : forall before p l r, thinned alg n (before ++ [p]) l r -> thinned alg n before (p :: l) (p :: r)
| thinned_drop : forall before p q l r, In q before -> subsumes alg q p n = true ->
    thinned alg n before l r -> thinned alg n before (p :: l) r.

Lemma thinned_refl : forall alg n l before, thinned alg n before l l.
Proof. intros alg n l. induction l as [|p l IH]; intros before; constructor; auto. Qed.

Lemma thinned_filter : forall alg n outer l before r, In outer before ->
  thinned alg n before (filter (fun p => negb (subsumes alg outer p n)) l) r -> thinned alg n before l r.
Proof.
  intros alg n outer l. induction l as [|p l IH]; intros before r I H; [exact H|].
  cbn [filter] in H. destruct (subsumes alg outer p n) eqn:E; cbn [negb] in H.
  - eapply thinned_drop; eauto.
  - inversion H; subst.
    + apply thinned_keep, IH; auto. apply in_or_app. auto.
    + eapply thinned_drop; eauto.
Qed.

Lemma thinned_skip : forall alg n outer l before r, In outer before ->
  thinned alg n before (skip_remove alg n outer l) r -> thinned alg n before l r.
Proof.
  intros alg n outer l. induction l as [|p l IH]; intros before r I H; [exact H|].
  cbn [skip_remove] in H. destruct (ne outer <? ne p)%N.
  - eapply thinned_filter; eauto.
  - inversion H; subst.
    + apply thinned_keep, IH; auto. apply in_or_app. auto.
    + eapply thinned_drop; eauto.
Qed.

(** Whatever the order of the positions: those that remain are in their old order,
    the first one remains, and every one that is removed is subsumed by one that
    remains and came before it. *)
Theorem C43_any_order : forall alg n l, thinned alg n [] l (unsubsume alg n l).
Proof.
  intros alg n l. unfold unsubsume. generalize (@nil position) as before. generalize (length l) as k. intros k. revert l.
  induction k as [|k IH]; intros l before; [apply thinned_refl|]. destruct l as [|p l]; cbn [unsubsume_steps]; [constructor|].
  apply thinned_keep. eapply thinned_skip; [apply in_or_app; right; now left|]. apply IH.
Qed.
Print Assumptions C43_any_order.

(** Here the order is not ascending, and one with fewer errors is removed because the
    subtraction wraps around. *)
Example C43_any_order_case :
  unsubsume STANDARD 4 [Pos 1 1 false; Pos 1 2 false; Pos 0 0 false; Pos 9 2 false] = [Pos 1 1 false; Pos 9 2 false].
Proof. vm_compute. reflexivity. Qed.

(** In ascending order, as unsubsume expects them, and when none is special (which is
    always so for the standard algorithm), nothing that the state accepted is lost. *)
Theorem C43_meaning : forall alg x n nn l u,
  StronglySorted (fun p q => (ne p <= ne q)%N) l -> (forall p, In p l -> fits p /\ flag alg p = false) ->
  (exists p, In p (unsubsume alg nn l) /\ accepts alg x n p u) <-> (exists p, In p l /\ accepts alg x n p u).
Proof.
  intros alg x n nn l u S F. destruct (C43_unsubsume_ascending alg nn l S) as (keep & -> & K). split.
  - intros (p & I & A). apply filter_In in I. exists p. tauto.
  - intros (p & I & A). destruct (keep p) eqn:Kp; [exists p; split; auto; now apply filter_In|].
    apply (K p I) in Kp. destruct Kp as (q & Iq & Kq & Lt & Sb). exists q. split; [now apply filter_In|].
    destruct (F p I), (F q Iq). apply (C44_subsumes alg x n q p u nn); auto.
Qed.
Print Assumptions C43_meaning.

Example C43_meaning_case : let l := [Pos 1 1 false; Pos 1 2 false; Pos 2 2 false; Pos 4 2 false] in
  StronglySorted (fun p q => (ne p <= ne q)%N) l /\ (forall p, In p l -> fits p /\ flag STANDARD p = false) /\
  unsubsume STANDARD 2 l <> l.
Proof.
  split; [|split].
  - repeat constructor; cbn; lia.
  - intros p [<-|[<-|[<-|[<-|[]]]]]; split; try reflexivity; unfold fits; cbn; lia.
  - vm_compute. discriminate.
Qed.

(** With special positions it would lose some: for transpositions and for merges and
    splits unsubsume is only harmless because StateTransition gives it states in
    descending order, from which it removes nothing. *)
Theorem C43_meaning_refuted : forall alg, alg = TRANSPOSITION \/ alg = MERGE_AND_SPLIT ->
  exists x n nn l u, StronglySorted (fun p q => (ne p <= ne q)%N) l /\
    (exists p, In p l /\ accepts alg x n p u) /\ ~ (exists p, In p (unsubsume alg nn l) /\ accepts alg x n p u).
Proof.
  intros alg [->| ->].
  - destruct C44_ordinary_special_swap_refuted as (x & n & l & r & u & nn & _ & _ & Lt & Sb & Ar & Al).
    exists x, n, nn, [l; r], u. split; [repeat constructor; lia|]. split; [exists r; cbn; auto|].
    unfold unsubsume. cbn [length unsubsume_steps skip_remove]. apply N.ltb_lt in Lt. rewrite Lt. cbn [filter]. rewrite Sb. cbn [negb].
    intros (p & [<-|[]] & A). auto.
  - destruct C44_special_ordinary_split_refuted as (x & n & l & r & u & nn & _ & _ & Lt & Sb & Ar & Al).
    exists x, n, nn, [l; r], u. split; [repeat constructor; lia|]. split; [exists r; cbn; auto|].
    unfold unsubsume. cbn [length unsubsume_steps skip_remove]. apply N.ltb_lt in Lt. rewrite Lt. cbn [filter]. rewrite Sb. cbn [negb].
    intros (p & [<-|[]] & A). auto.
Qed.
Print Assumptions C43_meaning_refuted.

(** * Property C71: queries when memory runs out. *)
From Coq Require Import Permutation.
From Verif Require Import Base Spec ModelTransducer ModelDawg ModelQuery ModelState ModelMemory.
From Verif Require Import SpecState SpecDawg SpecQuery SpecMemory PointerProofs MemoryProofs RunProofs QueryFacts.
From Verif Require Import PropsState PropsDawg PropsQuery PropsMemory TransProofs StateProofs BoundProofs TreeProofs HeapProofs.
From Verif Require Import ModelShared ModelThrow SpecThrow ThrowProofs.
Local Open Scope nat_scope.

(** ** C71: std::bad_alloc

    Queries are begun, incremented and destroyed in any order, and in each of
    these any allocation may fail; the program catches std::bad_alloc and goes
    on using the iterators, also those whose increment has thrown.  There is no
    undefined behaviour and all destructors work.  What an iterator shows are
    results of its query, each at most as often as it is one, in the right
    order; if none of its increments has thrown, they are the first of them, and
    all if it is at its end.  Nothing that was there before is changed, and if
    no exception was thrown nothing is left over. *)
Theorem C71_out_of_memory : forall R (rt : result_type R) alg terms h d al order base commands,
  sound_allocators al -> dictionary terms h d ->
  (forall q n b, In (Open q n, b) commands -> within_limits terms q n) ->
  exists enough, forall fuel, enough <= fuel ->
  exists w1 t w2 holders caught w3 w4,
    make_transducer fuel al base (d_root d) = Ok (w1, t) /\
    attempts rt fuel al order h alg t commands w1 [] = Ok (w2, holders, caught) /\
    (forall i x results, nth_error holders i = Some (Some x) ->
       yields rt alg h d (term_of x) (bound_of x) results ->
       subsequence (shown x) results /\
       (interrupted x = false -> exists later, results = shown x ++ later /\
          (l_complete (iterator_of x) = true -> later = []))) /\
    preserved w1 w2 /\
    destroy_all fuel w2 holders = Ok w3 /\ preserved w1 w3 /\
    destroy_transducer fuel w3 t = Ok w4 /\ preserved base w4 /\
    (caught = 0 -> same_memory w3 w1 /\ same_memory w4 base) /\
    ((forall c b, In (c, b) commands -> b = None) -> caught = 0).
Proof.
  intros R rt alg terms h d al order base cmds HA D HL.
  destruct (dictionary_unf _ _ _ D) as (U & _).
  assert (HS : exists S, forall q n b, In (Open q n, b) cmds -> most alg (N.to_nat n) <= S).
  { clear. induction cmds as [|[c b] cmds [S IH]]; [exists 0; intros ? ? ? []|].
    exists (Nat.max S match c with Open _ n => most alg (N.to_nat n) | _ => 0 end).
    intros q n b' [E|Hin].
    - injection E as -> ->. lia.
    - specialize (IH q n b' Hin). lia. }
  destruct HS as [S HS].
  assert (X : (exists q n b, In (Open q n, b) cmds) \/ (forall q n b, ~ In (Open q n, b) cmds)).
  { clear. induction cmds as [|[c b] cmds [(q & n & b' & IH)|IH]].
    - right. intros ? ? ? [].
    - left. exists q, n, b'. now right.
    - destruct c as [q n|i|i]; [left; exists q, n, b; now left|right..]; intros q n b' [E|H]; try discriminate;
        eapply IH; eauto. }
  destruct X as [(q0 & n0 & b0 & X)|X].
  - destruct (HL q0 n0 b0 X) as (_ & _ & Lt).
    destruct (longest terms small_depth) as (B & SB & HB). { unfold small_depth; lia. } { exact Lt. }
    pose proof (trie_height _ _ HB) as Hh.
    exists (6 * S + B + 10 + QueryProofs.steps [] [([], trie terms)]). intros fuel Hf.
    destruct (@make_transducer_ok al base (d_root d) fuel HA ltac:(lia)) as (w1 & root & E1 & O1 & De & Ll).
    pose proof (owns_get O1 (or_introl eq_refl)) as Hr.
    destruct (@attempts_ok R rt h alg B (d_root d) (trie terms) SB U Hh al order fuel S root w1 HA ltac:(lia) ltac:(lia) Hr De
      cmds w1 w1 [] (state_start _ _ _ _ _ _ _ _)) as (w2 & hs & caught & base2 & E2 & Hs & Hb & Hn).
    { intros q n b Hin. destruct (HL q n b Hin) as (L1 & L2 & _). split; [exact L1|]. split; [exact L2|]. now apply (HS q n b). }
    destruct Hs as (es & -> & HG & O2 & Bd & K).
    destruct (@destroy_all_ok R rt h alg B (trie terms) fuel S root base2 es ltac:(lia) w2 HG O2 Bd) as (w3 & E3 & O3).
    assert (K3 : keeps w1 w3).
    { apply owns_alike in O3. destruct O3 as ([A1 B1] & [A2 B2] & [A3 B3]). intros c. destruct (K c) as [K1 K2].
      destruct c; cbn [part] in *; (split; [intros a y Hy|intros a]); rewrite ?A1, ?A2, ?A3, ?B1, ?B2, ?B3; auto. }
    destruct (owns_rebase O1 K3) as (base3 & O3' & Kb).
    destruct (@delete_own w3 base3 root [] fuel O3' ltac:(lia)) as (w4 & E4 & O4).
    exists w1, (o_ptr root), w2, (map snd es), caught, w3, w4.
    split; [exact E1|]. split; [exact E2|]. split.
    { intros i x results Hi Y. destruct (nth_pairs Hi) as (a & e & b & -> & _ & Ee).
      rewrite Forall_forall in HG. specialize (HG e (in_elt _ _ _)). unfold faithful in HG. rewrite Ee in HG.
      destruct HG as ((F1 & F2 & F3) & lit & L & Rel & Hl & Sb & Ex). cbv zeta in Sb, Ex.
      assert (results = all_results rt alg (trie terms) (term_of x) (bound_of x)) as ->.
      { apply (yields_det _ _ _ _ _ _ _ _ _ Y).
        pose proof (query_all_main _ rt alg terms h d (term_of x) (bound_of x) D (conj F1 (conj F2 Lt))) as Y'.
        rewrite render_scored in Y'. exact Y'. }
      split.
      - eapply sub_trans; [exact Sb|]. rewrite <- (app_nil_r (shown x)) at 1.
        apply sub_app; [apply sub_refl|apply sub_nil].
      - intros Hi'. destruct (Ex Hi') as [Ex1 Ex2]. eexists. split; [symmetry; exact Ex1|].
        intros Hc. now rewrite (Ex2 Hc). }
    split.
    { apply keeps_preserved in K. pose proof (owns_preserved O2) as (P1 & P2 & P3). destruct K as (K1' & K2' & K3'').
      split; [|split]; auto. }
    split; [exact E3|]. split; [exact (keeps_preserved K3)|]. split; [exact E4|]. split.
    { apply keeps_preserved in Kb. pose proof (owns_preserved O4) as (P1 & P2 & P3). destruct Kb as (K1' & K2' & K3'').
      split; [|split]; auto. }
    split; [|exact Hn]. intros Hc. rewrite (Hb Hc) in O3. split; [now apply owns_same|].
    pose proof (owns_trans O1 O3) as O5. cbn [app] in O5.
    destruct (@delete_own w3 base root [] fuel O5 ltac:(lia)) as (w5 & E5 & O6).
    unfold destroy_transducer in E4. rewrite E4 in E5. injection E5 as <-. now apply owns_same.
  - exists 3. intros fuel Hf.
    destruct (@make_transducer_ok al base (d_root d) fuel HA ltac:(lia)) as (w1 & root & E1 & O1 & De & Ll).
    destruct (@delete_own w1 base root [] fuel O1 ltac:(lia)) as (w4 & E4 & O4).
    exists w1, (o_ptr root), w1, [], 0, w1, w4. split; [exact E1|]. split.
    { clear - X. induction cmds as [|[c b] cmds IH]; [reflexivity|]. cbn [attempts].
      assert (E : attempt_one rt fuel al order h alg (o_ptr root) c b w1 [] = Ok (w1, [], false)).
      { destruct c as [q n|i|i]; [destruct (X q n b); now left| |]; destruct i; reflexivity. }
      rewrite E. cbn [rbind]. rewrite IH; [reflexivity|]. intros q n b' H. apply (X q n b'). now right. }
    split; [intros i x results Hi; destruct i; discriminate|].
    assert (P : forall w, preserved w w) by (intros w; repeat split; auto).
    split; [apply P|]. split; [reflexivity|]. split; [apply P|]. split; [exact E4|].
    split; [exact (owns_preserved O4)|]. split; [|reflexivity].
    intros _. split; [repeat split; reflexivity|now apply owns_same].
Qed.
Print Assumptions C71_out_of_memory.

(** An increment that throws leaves the iterator equal to end(), with the value
    it had. *)
Theorem C71_interrupted : forall R (rt : result_type R) fuel al order h alg q n b w it b' w' it',
  try_advance rt fuel al order h alg q n b w it = Ok (b', w', it', false) ->
  l_complete it' = true /\ l_candidate it' = l_candidate it.
Proof. intros *. apply try_advance_throws. Qed.
Print Assumptions C71_interrupted.

(** Making the transducer may fail as well, and nothing else happens then. *)
Theorem C71_transducer : forall al base root, sound_allocators al ->
  exists enough, forall fuel b, enough <= fuel ->
  exists b' w r, try_make_transducer fuel al b base root = Ok (b', w, r) /\ preserved base w /\
    (forall t, r = Some t -> make_transducer fuel al base root = Ok (w, t)) /\ (b = None -> r <> None).
Proof.
  intros al base root HA. exists 3. intros fuel b Hf. pose proof HA as (HA1 & HA2 & HA3).
  destruct (@make_transducer_ok al base root fuel HA ltac:(lia)) as (w1 & o & E & O & _).
  pose proof (owns_preserved O) as P. unfold try_make_transducer.
  assert (Pm : preserved base base) by (repeat split; auto).
  destruct (spend b) as [b1|] eqn:E1.
  2: { eexists _, _, _. split; [reflexivity|]. split; [exact Pm|]. split; [discriminate|].
       intros X. exact (False_ind _ (spend_none E1 X)). }
  unfold make_transducer in E.
  destruct (mget_mnew (w_pos base) (Cell (Pos 0 0 false) null) HA1) as (a & m1 & Ea & A1 & A2 & A3 & A4 & A5).
  unfold new_position in *. rewrite Ea in *.
  destruct (spend b1) as [b2|] eqn:E2.
  2: { eexists _, _, _. split; [reflexivity|]. split.
       - split; [|split]; auto. cbn [w_pos]. intros p x H. rewrite A4; [exact H|]. intros ->. congruence.
       - split; [discriminate|]. intros X. exact (False_ind _ (spend_none E2 (spend_some E1 X))). }
  destruct (state_of fuel m1 [a]) as [[m2 head]| |] eqn:Es; try discriminate. cbn [rbind] in *.
  destruct (mnew (a_st al) (w_st base) head) as [s ss] eqn:Em.
  destruct (new_intersection al (World m2 ss (w_int base)) (ICell NUL root s null)) as [p w2] eqn:En.
  injection E as -> ->.
  destruct (spend b2) as [b3|] eqn:E3.
  - eexists _, _, _. split; [reflexivity|]. split; [exact P|]. split; [|discriminate].
    intros t X. injection X as <-. unfold make_transducer, new_position. rewrite Ea, Es. cbn [rbind].
    rewrite Em, En. reflexivity.
  - eexists _, _, _. split; [reflexivity|]. split; [|split; [discriminate|]].
    + unfold new_intersection in En. destruct (mnew (a_int al) _ _) as [p' is']. injection En as _ <-.
      destruct P as (P1 & P2 & P3). split; [exact P1|]. split; [exact P2|]. auto.
    + intros X. exact (False_ind _ (spend_none E3 (spend_some E2 (spend_some E1 X)))).
Qed.
Print Assumptions C71_transducer.

(** As long as memory lasts, these functions are those of C50. *)
Theorem C71_unlimited : forall R (rt : result_type R) fuel al order h alg q n w,
  (forall it, try_advance rt fuel al order h alg q n None w it =
     do (w', it') <- lazy_advance rt fuel al order h alg q n w it; Ok (None, w', it', true)) /\
  (forall t, try_begin rt fuel al order h alg q n None w t =
     do (w', it) <- lazy_begin rt fuel al order h alg q n w t; Ok (None, w', Some it)).
Proof.
  intros R rt fuel al order h alg q n w.
  assert (A : forall w it, try_advance rt fuel al order h alg q n None w it =
    do (w', it') <- lazy_advance rt fuel al order h alg q n w it; Ok (None, w', it', true)).
  { clear w. intros w it. unfold try_advance, lazy_advance. destruct (lazy_work it); [|reflexivity].
    apply try_loop_unlimited. }
  split; [apply A|]. intros t. unfold try_begin, lazy_begin. cbn [spend].
  destruct (mread (w_int w) t) as [x| |]; try reflexivity. cbn [rbind].
  destruct (ModelDawg.read h (ic_node x)) as [nd| |]; try reflexivity. cbn [rbind].
  destruct (_ && _)%bool; [reflexivity|]. rewrite A.
  destruct (lazy_advance _ _ _ _ _ _ _ _ _ _) as [[w' it]| |]; reflexivity.
Qed.
Print Assumptions C71_unlimited.

(** The dictionary {a, ab, cab, cb} and a query with four results.  The second
    increment fails; the iterator then equals end() although it has not yielded
    all results.  All later increments succeed, but the third result is missing.
    What had been allocated for it is never released. *)
Definition with_failure : list (command * budget) :=
  [(Open cat 2, None); (Increment 0, None); (Increment 0, Some 12);
   (Increment 0, None); (Increment 0, None); (Increment 0, None)].

Example C71_case : sound_allocators sound_bump /\ dictionary some_terms example_heap example_dawg /\
  (forall q n b, In (Open q n, b) with_failure -> within_limits some_terms q n).
Proof.
  split; [exact sound_allocators_bump|]. split; [exact example_dictionary|].
  intros q n b H. repeat (destruct H as [H|H]; [injection H as <- <- <- || discriminate;
    apply example_limits; discriminate|]). destruct H.
Qed.

Theorem C71_lost_refuted : exists commands w1 t w2 x,
  make_transducer 60 sound_bump no_objects (d_root example_dawg) = Ok (w1, t) /\
  attempts as_candidate 60 sound_bump left_first example_heap STANDARD t commands w1 [] = Ok (w2, [Some x], 1) /\
  l_complete (iterator_of x) = true /\ map fst (shown x) = [lit "a"; lit "ab"; lit "cab"] /\
  (exists results, yields as_candidate STANDARD example_heap example_dawg (term_of x) (bound_of x) results /\
     map fst results = [lit "a"; lit "ab"; lit "cb"; lit "cab"]).
Proof.
  exists with_failure. eexists _, _, _, _. run. run. run. run.
  eexists. split; [|].
  - apply query_all_main with (terms := some_terms); [exact example_dictionary|]. apply example_limits; discriminate.
  - vm_compute. reflexivity.
Qed.
Print Assumptions C71_lost_refuted.

Theorem C71_leak_refuted : exists commands w1 t w2 holders caught w3 w4,
  make_transducer 60 sound_bump no_objects (d_root example_dawg) = Ok (w1, t) /\
  attempts as_candidate 60 sound_bump left_first example_heap STANDARD t commands w1 [] = Ok (w2, holders, caught) /\
  destroy_all 60 w2 holders = Ok w3 /\ destroy_transducer 60 w3 t = Ok w4 /\
  ~ same_memory w4 no_objects /\ in_use (w_pos w4) = [14; 13]%N /\ in_use (w_st w4) = [6]%N.
Proof.
  exists with_failure. eexists _, _, _, _, _, _, _. run. run. run. run. split.
  - intros (_ & H & _). specialize (H 6%N). vm_compute in H. discriminate.
  - split; vm_compute; reflexivity.
Qed.
Print Assumptions C71_leak_refuted.

(** The same query, when the failure comes while the edges of a node are put into
    the queue: those that were not put there are never followed, although every
    later increment succeeds. *)
Definition edges_failure (k : nat) : list (command * budget) :=
  [(Open cat 2, None); (Increment 0, None); (Increment 0, Some k);
   (Increment 0, None); (Increment 0, None); (Increment 0, None)].

Theorem C71_edges_refuted : forall k seen,
  (k = 0 /\ seen = [lit "a"; lit "ab"]) \/ (k = 1 /\ seen = [lit "a"; lit "ab"; lit "cab"]) ->
  exists w1 t w2 x,
  make_transducer 60 sound_bump no_objects (d_root example_dawg) = Ok (w1, t) /\
  attempts as_candidate 60 sound_bump left_first example_heap STANDARD t (edges_failure k) w1 [] = Ok (w2, [Some x], 1) /\
  l_complete (iterator_of x) = true /\ map fst (shown x) = seen /\
  (exists results, yields as_candidate STANDARD example_heap example_dawg (term_of x) (bound_of x) results /\
     map fst results = [lit "a"; lit "ab"; lit "cb"; lit "cab"]).
Proof.
  intros k seen [[-> ->]|[-> ->]]; eexists _, _, _, _; run; run; run; run.
  all: eexists; split;
    [apply query_all_main with (terms := some_terms); [exact example_dictionary|apply example_limits; discriminate]
    |vm_compute; reflexivity].
Qed.
Print Assumptions C71_edges_refuted.

(** * PropsAlloc: how many allocations a query makes (C97). *)
From Coq Require Import Sorting.Sorted Sorting.Permutation.
From Verif Require Import Base Spec SpecTransducer ModelTransducer ModelDawg ModelQuery ModelState ModelMemory ModelShared ModelThrow SpecDawg SpecState SpecMemory
  SpecBounds SpecQuery SpecHold SpecBall SpecAlloc AlignProofs TransProofs StateProofs ReadProofs TreeProofs HeapProofs IterProofs DawgProofs QueryProofs
  QueryFacts BoundProofs PointerProofs MemoryProofs ThrowProofs HoldProofs BallProofs AllocProofs PropsState PropsDawg PropsQuery PropsBounds PropsMemory
  PropsHold PropsBall.
Local Open Scope nat_scope.

Section Log.
  Context {R : Type} (rt : result_type R).
  Variables (h : heap) (alg : algorithm) (x : str) (n : N).

  Lemma increments_split fuel : forall k j (q : query R),
    log_increments rt h alg x n fuel (k + j) q =
    do (l1, q1) <- log_increments rt h alg x n fuel k q; do (l2, q2) <- log_increments rt h alg x n fuel j q1; Ok (l1 ++ l2, q2).
  Proof.
    induction k as [|k IH]; intros j q; cbn [log_increments Nat.add].
    - cbn [rbind]. destruct (log_increments rt h alg x n fuel j q) as [[l q2]| |]; reflexivity.
    - destruct (log_advance rt h alg x n fuel q) as [[l0 q0]| |]; cbn [rbind]; try reflexivity. rewrite IH.
      destruct (log_increments rt h alg x n fuel k q0) as [[l1 q1]| |]; cbn [rbind]; try reflexivity.
      destruct (log_increments rt h alg x n fuel j q1) as [[l2 q2]| |]; cbn [rbind]; try reflexivity. now rewrite app_assoc.
  Qed.

  Lemma increments_edges fuel : (n <= SIZE_MAX)%N -> forall k (q : query R) log q', log_increments rt h alg x n fuel k q = Ok (log, q') ->
    length (q_edges q) <= length log + length (q_edges q').
  Proof.
    intros Hn. induction k as [|k IH]; intros q log q' E; cbn [log_increments] in E.
    - injection E as <- <-. lia.
    - destruct (log_advance rt h alg x n fuel q) as [[l0 q0]| |] eqn:E0; cbn [rbind] in E; try discriminate.
      destruct (log_increments rt h alg x n fuel k q0) as [[l1 q1]| |] eqn:E1; cbn [rbind] in E; try discriminate. injection E as <- <-.
      pose proof (advance_edges (B := 0) Hn (le_n _) (fun _ _ => true) (le_n _) E0). pose proof (IH _ _ _ E1). rewrite app_length. lia.
  Qed.

  Lemma loop_complete : forall f (q : query R) log q', log_loop rt h alg x n f q = Ok (log, q') -> q_complete q' = true -> has_work q' = false.
  Proof.
    induction f as [|f IH]; intros q log q' E C; [discriminate|]. cbn [log_loop] in E.
    destruct (advance_step rt h alg x n q) as [[b q1]| |] eqn:E1; try discriminate. cbn [rbind] in E.
    destruct b; [|destruct (has_work q1) eqn:HW1].
    - injection E as <- <-. exfalso. revert E1. unfold advance_step. intros E1.
      repeat match type of E1 with
      | rbind ?r _ = _ => destruct r; cbn [rbind] in E1; try discriminate
      | (match ?r with _ => _ end) = _ => destruct r; try discriminate
      end; injection E1 as <-; discriminate.
    - destruct (log_loop rt h alg x n f q1) as [[log1 q2]| |] eqn:E2; try discriminate. cbn [rbind] in E. injection E as <- <-. eauto.
    - injection E as <- <-. exact HW1.
  Qed.

  Lemma advance_complete f (q : query R) log q' : log_advance rt h alg x n f q = Ok (log, q') -> q_complete q' = true -> has_work q' = false.
  Proof.
    unfold log_advance. destruct (has_work q) eqn:HW; intros E C; [eapply loop_complete; eauto|]. injection E as <- <-. exact HW.
  Qed.

  Lemma increments_complete fuel : forall k (q : query R) log q', log_increments rt h alg x n fuel (S k) q = Ok (log, q') ->
    q_complete q' = true -> q_edges q' = [].
  Proof.
    intros k q log q' E C. assert (W : has_work q' = false).
    { replace (S k) with (k + 1) in E by lia. rewrite increments_split in E.
      destruct (log_increments rt h alg x n fuel k q) as [[l1 q1]| |]; cbn [rbind log_increments] in E; try discriminate.
      destruct (log_advance rt h alg x n fuel q1) as [[l2 q2]| |] eqn:E2; cbn [rbind] in E; try discriminate. injection E as <- <-.
      eapply advance_complete; eauto. }
    unfold has_work in W. destruct (q_edges q'); auto. destruct (q_pending q'); discriminate.
  Qed.
End Log.

Section Increments.
  Context {R : Type} (rt : result_type R).
  Variables (h : heap) (alg : algorithm) (x : str) (n : N) (B S : nat).
  Hypothesis Hx : manageable x n.
  Hypothesis Hn : (n <= SIZE_MAX)%N.
  Hypothesis HB : small_depth B.
  Hypothesis HS : most alg (N.to_nat n) <= S.
  Variables (al : allocators) (order : positions -> ptr -> bool) (fuel : nat) (base : world) (root : own) (t : ptr).
  Hypothesis HA : sound_allocators al.
  Hypothesis Hf : 6 * S + B + 10 <= fuel.
  Hypothesis Hr : readable base root.

  Lemma try_increments_enough : forall k j w it q count log q', held h alg x n B S base root [] w it q count ->
    log_increments rt h alg x n fuel k q = Ok (log, q') ->
    exists w' it', run rt fuel al order h alg t (repeat (Increment 0) k) w [Some (x, n, j, it)] = Ok (w', [Some (x, n, j + k, it')]) /\
      forall m, (4 * S + 7) * length log + length (q_edges q') <= m + length (q_edges q) ->
      exists m', try_increments rt fuel al order h alg x n k (Some m) w it = Ok (Some m', w', Some it').
  Proof.
    induction k as [|k IH]; intros j w it q count log q' Hh E; cbn [log_increments repeat run try_increments] in *.
    - injection E as <- <-. exists w, it. rewrite Nat.add_0_r. split; [reflexivity|]. intros m _. eauto.
    - destruct (log_advance rt h alg x n fuel q) as [[log1 q1]| |] eqn:E1; try discriminate. cbn [rbind] in E.
      destruct (log_increments rt h alg x n fuel k q1) as [[log2 q2]| |] eqn:E2; try discriminate. cbn [rbind] in E. injection E as <- <-.
      destruct (try_advance_enough Hx Hn HB HS order HA Hf Hr Hh E1 (le_n _)) as (w1 & it1 & El & Hh1 & X).
      cbn [run_one nth_error]. rewrite El. cbn [rbind put].
      destruct (IH (Datatypes.S j) w1 it1 q1 _ log2 q2 Hh1 E2) as (w2 & it2 & Er & Y).
      exists w2, it2. rewrite Nat.add_succ_r. split; [exact Er|]. intros m Hm.
      rewrite app_length, Nat.mul_add_distr_l in Hm. pose proof (increments_edges rt h alg x n fuel Hn k q1 log2 q2 E2) as Le.
      destruct (X m ltac:(lia)) as (m1 & -> & Hm1). cbn [rbind]. apply Y. lia.
  Qed.
End Increments.

(** Two allocations, and for each prefix of a term that is worth looking at seven and
    four for each position of the state before it, are enough for beginning the
    query and for any number of increments together, in whatever order the prefixes
    come; the outcome is the same as with unlimited memory. *)
Theorem C97_allocations : forall R (rt : result_type R) alg terms h d al order base q n k prefixes,
  sound_allocators al -> dictionary terms h d -> within_limits terms q n ->
  (forall w, worth_trying alg terms q n w -> In w prefixes) ->
  exists enough, forall fuel, enough <= fuel ->
  exists w1 t w2 it,
    make_transducer fuel al base (d_root d) = Ok (w1, t) /\
    run rt fuel al order h alg t (Open q n :: repeat (Increment 0) k) w1 [] = Ok (w2, [Some (q, n, k, it)]) /\
    forall memory, 2 + (4 * positions_at_most alg (N.to_nat n) + 7) * length prefixes <= memory ->
    exists left, try_query rt fuel al order h alg q n k (Some memory) w1 t = Ok (Some left, w2, Some it).
Proof.
  intros R rt alg terms h d al order base q n k prefixes HA D L HP.
  pose proof (candidates_main alg _ _ _ _ _ D L) as Y.
  set (results := scored alg terms q n) in *. set (j := Datatypes.S (length results)).
  destruct (C65_work R rt alg terms h d q n (k + j) results D L Y) as (log & it0 & Wk & St & So & Lg).
  assert (C0 : q_complete it0 = true).
  { destruct (query_after_main _ rt alg terms h d q n (k + j) D L) as (it1 & St1 & X).
    pose proof (runs_to_det _ _ _ _ St St1) as <-.
    assert (E : nth_error (scored alg terms q n) (k + j) = None) by (apply nth_error_None; unfold j, results; lia).
    rewrite E in X. apply X. }
  destruct (dictionary_unf _ _ _ D) as (U & _). destruct (small_terms _ _ _ L) as (B & SB & HB).
  pose proof L as (Lq & Ln & Lt). destruct Wk as (M & Wk). set (S := most alg (N.to_nat n)).
  change (positions_at_most alg (N.to_nat n)) with S.
  exists (M + (6 * S + B + 10) + 3). intros fuel Hf.
  specialize (Wk fuel ltac:(lia)). unfold log_after in Wk. cbn [new_transducer tr_alg tr_root] in Wk.
  destruct (log_new rt h alg q n fuel (RootI (d_root d) initial_state)) as [[log1 q1]| |] eqn:E1.
  2: { unfold initial_state in E1. rewrite E1 in Wk. discriminate. }
  2: { unfold initial_state in E1. rewrite E1 in Wk. discriminate. }
  assert (E1' := E1). unfold initial_state in E1'. rewrite E1' in Wk. cbn [rbind] in Wk. clear E1'.
  rewrite increments_split in Wk.
  destruct (log_increments rt h alg q n fuel k q1) as [[log2 q2]| |] eqn:E2; try discriminate. cbn [rbind] in Wk.
  destruct (log_increments rt h alg q n fuel j q2) as [[log3 q3]| |] eqn:E3; try discriminate. cbn [rbind] in Wk. injection Wk as <- <-.
  pose proof (increments_edges rt h alg q n fuel Ln j q2 log3 q3 E3) as Le.
  rewrite (increments_complete rt h alg q n fuel _ _ _ _ E3 C0) in Le. cbn [length] in Le.
  assert (Tot : length (log1 ++ log2 ++ log3) <= length prefixes).
  { apply sorted_by_StronglySorted in So; [|exact shortlex_trans]. apply StronglySorted_NoDup in So; [|exact shortlex_irrefl].
    apply NoDup_incl_length; auto. intros w I. apply HP. now apply Lg in I. }
  rewrite !app_length in Tot.
  destruct (@make_transducer_ok al base (d_root d) fuel HA ltac:(lia)) as (w1 & root & Em & O1 & De & Ll).
  pose proof (owns_get O1 (or_introl eq_refl)) as Rd.
  assert (O0 : owns w1 w1 []). { apply owns_nil. repeat split; reflexivity. }
  destruct (@try_begin_enough R rt h alg q n B S Lq Ln SB (le_n _) al order fuel w1 root [] HA ltac:(lia) Rd (d_root d) (trie terms) U HB De
    fuel w1 log1 q1 O0 E1 (le_n _)) as (w2 & it2 & Eb & Hh & X).
  destruct (@try_increments_enough R rt h alg q n B S Lq Ln SB (le_n _) al order fuel w1 root (o_ptr root) HA ltac:(lia) Rd
    k 0 w2 it2 q1 _ log2 q2 Hh E2) as (w3 & it3 & Er & Z).
  exists w1, (o_ptr root), w3, it3. split; [exact Em|]. split.
  { cbn [run run_one]. rewrite Eb. cbn [rbind app]. exact Er. }
  intros memory Hm. pose proof (increments_edges rt h alg q n fuel Ln k q1 log2 q2 E2) as Le2.
  assert (Hm' : 2 + ((4 * S + 7) * length log1 + ((4 * S + 7) * length log2 + (4 * S + 7) * length log3)) <= memory).
  { etransitivity; [|exact Hm]. rewrite <- !Nat.mul_add_distr_l. apply Nat.add_le_mono_l, Nat.mul_le_mono_l. lia. }
  unfold try_query. destruct (X memory ltac:(lia)) as (m1 & -> & Hm1). cbn [rbind].
  destruct (Z m1 ltac:(lia)) as (m2 & ->). eauto.
Qed.
Print Assumptions C97_allocations.

(** So the number of allocations does not grow with the dictionary. *)
Theorem C97_bound : forall R (rt : result_type R) alg terms h d al order base q n k letters,
  sound_allocators al -> dictionary terms h d -> within_limits terms q n -> written_with letters terms ->
  exists enough, forall fuel, enough <= fuel ->
  exists w1 t w2 it,
    make_transducer fuel al base (d_root d) = Ok (w1, t) /\
    run rt fuel al order h alg t (Open q n :: repeat (Increment 0) k) w1 [] = Ok (w2, [Some (q, n, k, it)]) /\
    forall memory,
    2 + (4 * positions_at_most alg (N.to_nat n) + 7) *
        (length letters * (length q + 1) * nearby alg (length letters) (length q) (N.to_nat n)) <= memory ->
    exists left, try_query rt fuel al order h alg q n k (Some memory) w1 t = Ok (Some left, w2, Some it).
Proof.
  intros R rt alg terms h d al order base q n k letters HA D L W.
  destruct (worth_trying_few alg terms q n letters W) as (prefixes & HP & Le).
  destruct (C97_allocations R rt alg terms h d al order base q n k prefixes HA D L HP) as (N & H).
  exists N. intros fuel Hf. destruct (H fuel Hf) as (w1 & t & w2 & it & E1 & E2 & X). exists w1, t, w2, it.
  split; [exact E1|]. split; [exact E2|]. intros memory Hm. apply X. etransitivity; [|exact Hm].
  apply Nat.add_le_mono_l, Nat.mul_le_mono_l. exact Le.
Qed.
Print Assumptions C97_bound.

(** The query "cat" with distance 1 on {a, ab, cab, cb}: it looks at six prefixes, so 140
    allocations are enough; with 44 it succeeds, too, with 43 it throws. *)
Definition six : list str := [lit "a"; lit "c"; lit "ab"; lit "ca"; lit "cb"; lit "cab"].

Example C97_case :
  (forall w, worth_trying STANDARD some_terms cat 1 w -> In w six) /\
  2 + (4 * positions_at_most STANDARD (N.to_nat 1) + 7) * length six = 140 /\
  exists w1 t w2 it w3,
  make_transducer 60 sound_bump no_objects (d_root example_dawg) = Ok (w1, t) /\
  run as_candidate 60 sound_bump left_first example_heap STANDARD t (Open cat 1 :: repeat (Increment 0) 1) w1 [] =
    Ok (w2, [Some (cat, 1%N, 1, it)]) /\ l_complete it = true /\
  try_query as_candidate 60 sound_bump left_first example_heap STANDARD cat 1 1 (Some 140) w1 t = Ok (Some 96, w2, Some it) /\
  try_query as_candidate 60 sound_bump left_first example_heap STANDARD cat 1 1 (Some 44) w1 t = Ok (Some 0, w2, Some it) /\
  try_query as_candidate 60 sound_bump left_first example_heap STANDARD cat 1 1 (Some 43) w1 t = Ok (Some 0, w3, None).
Proof.
  split.
  { intros w (v & c & u & z & j & -> & I & _). unfold some_terms in I. cbn [In] in I. rewrite <- app_assoc in I.
    repeat (destruct I as [I|I]; [vm_compute in I;
      repeat (destruct v as [|? v]; [injection I as <- <-; vm_compute; tauto|cbn [app] in I; injection I as <- I]);
      try discriminate; destruct v; discriminate|]). destruct I. }
  split; [vm_compute; reflexivity|]. eexists _, _, _, _, _. run. run. run. run. run. vm_compute. reflexivity.
Qed.

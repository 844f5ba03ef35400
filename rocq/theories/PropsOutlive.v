(** * PropsOutlive: a dictionary must outlive its iterators. *)
From Coq Require Import Sorting.Sorted Sorting.Permutation.
From Verif Require Import Base Spec ModelTransducer ModelDawg ModelSerial ModelQuery ModelState ModelMemory SpecDawg SpecQuery
  SpecState SpecMemory SpecOutlive MemoryProofs RunProofs GoneProofs TreeProofs HeapProofs IterProofs DawgProofs QueryProofs
  QueryFacts OutliveProofs PropsState PropsDawg PropsQuery PropsMemory.
Local Open Scope nat_scope.

(** ** C80: [delete dawg] while iterators exist.

    A query that stands on a result may not be incremented any more, not even if
    it is the last one; one that is exhausted may, and stays as it is. *)
Theorem C80_query : forall R (rt : result_type R) alg terms h b q n results k h2,
  dictionary terms h (b_dawg b) -> within_limits terms q n -> yields rt alg h (b_dawg b) q n results ->
  deleted h b h2 ->
  exists it, stands_at rt alg h (b_dawg b) q n k it /\
    (k < length results -> runs_into_ub (fun fuel => advance_query rt h2 alg q n fuel it)) /\
    (length results <= k -> runs_to (fun fuel => advance_query rt h2 alg q n fuel it) it).
Proof.
  intros R rt alg terms h b q n results k h2 D L Y De.
  pose proof (yields_det _ _ _ _ _ _ _ _ _ Y (query_all_main _ rt alg terms h (b_dawg b) q n D L)) as ->.
  rewrite map_length. apply query_outlives; auto.
  destruct (dictionary_unf _ _ _ D) as (U & _). eapply deleted_gone; eauto.
Qed.
Print Assumptions C80_query.

(** An iterator over the terms is one step ahead: on the last of the terms (all
    different ones, [distinct]) it may still be incremented, before it may not. *)
Theorem C80_iterator : forall terms distinct h b k h2,
  dictionary terms h (b_dawg b) -> NoDup distinct -> (forall w, In w distinct <-> In w terms) ->
  deleted h b h2 ->
  exists it, runs_to (fun fuel => iter_after fuel h (b_dawg b) k) it /\
    (S k < length distinct -> runs_into_ub (fun fuel => iter_next fuel h2 it)) /\
    (length distinct <= S k -> exists it', runs_to (fun fuel => iter_next fuel h2 it) it' /\
       runs_to (fun fuel => iter_next fuel h it) it').
Proof.
  intros terms distinct h b k h2 D ND Di De. destruct (dictionary_unf _ _ _ D) as (U & _).
  assert (P : Permutation (words (trie terms)) distinct).
  { apply NoDup_Permutation; auto.
    - eapply StronglySorted_NoDup; eauto using shortlex_irrefl, words_sorted, trie_sorted.
    - intros w. rewrite words_In, Di by apply trie_sorted. apply tin_trie. }
  rewrite <- (Permutation_length P).
  destruct (iter_outlives h h2 (b_dawg b) (trie terms) k U (trie_sorted _) (trie_useful _)) as (it & R & X1 & X2).
  { eapply deleted_gone; eauto. }
  exists it. split; auto. split; auto. intros Le. exists (Iter [] (it_value it) (wadd (it_index it) 1)).
  split; exists 0; intros; apply X2; auto.
Qed.
Print Assumptions C80_iterator.

(** Everything else that looks at a dictionary is undefined once it is deleted. *)
Theorem C80_members : forall terms h b h2, dictionary terms h (b_dawg b) -> deleted h b h2 ->
  let d := b_dawg b in
  (forall w, contains h2 d w = UB) /\
  runs_into_ub (fun fuel => dawg_begin fuel h2 d) /\
  runs_into_ub (fun fuel => dawg_hash fuel h2 d) /\
  runs_into_ub (fun fuel => dawg_eq fuel h2 d d) /\
  runs_into_ub (fun fuel => to_protobuf fuel h2 d) /\
  runs_into_ub (fun fuel => destroy fuel h2 b) /\
  (forall R (rt : result_type R) alg q n, runs_into_ub (fun fuel => begin_query rt fuel h2 (new_transducer alg (d_root d)) q n)).
Proof.
  intros terms h b h2 D De d. destruct (dictionary_unf _ _ _ D) as (U & _).
  pose proof (deleted_gone _ _ _ _ U De (d_root d) (reach_refl _ _)) as G.
  pose proof (read_gone _ _ G) as Rd.
  destruct (unf_reach_alloc _ _ _ _ U (reach_refl _ _)) as (Nn & _). fold d in Nn. apply N.eqb_neq in Nn.
  split.
  { intros w. unfold contains. destruct w as [|c w]; cbn [contains_loop rbind]; rewrite Nn, Rd; reflexivity. }
  split; [exists 1; intros [|fuel] Hf; [lia|]; unfold dawg_begin, advance; cbn [it_pending advance_loop prefix_node]; rewrite Rd; reflexivity|].
  split; [exists 0; intros fuel _; unfold dawg_hash; rewrite Rd; reflexivity|].
  split; [exists 0; intros fuel _; unfold dawg_eq; rewrite N.eqb_refl; cbn [negb]; rewrite Rd; reflexivity|].
  split; [exists 1; intros [|fuel] Hf; [lia|]; unfold to_protobuf; cbn [collect_nodes set_mem existsb]; rewrite Rd; reflexivity|].
  split.
  { exists 1. intros [|fuel] Hf; [lia|].
    assert (An : all_nodes (S fuel) h2 d = UB).
    { unfold all_nodes. cbn [all_nodes_loop]. rewrite Rd. reflexivity. }
    unfold destroy, clean_up. destruct b as [d0 pr [w|]]; cbn [b_work b_dawg] in *; fold d.
    - change d0 with d. rewrite An. reflexivity.
    - cbn [rbind b_dawg]. unfold destroy_dawg. change d0 with d. rewrite An. reflexivity. }
  intros R rt alg q n. exists 0. intros fuel _. unfold begin_query, new_query. cbn [new_transducer tr_root i_node]. rewrite Rd. reflexivity.
Qed.
Print Assumptions C80_members.

(** The premises hold: the example dictionary is deleted while a query for "cat"
    stands on its last result, and while an iterator stands on its first term. *)
Definition example_finished : builder := Eval vm_compute in
  match example_builder with Some b => b | None => Builder (Dawg null 0) [] None end.

Definition after_delete : heap := Eval vm_compute in
  match destroy 20 example_heap example_finished with Ok h => h | _ => [] end.

Example example_deleted : deleted example_heap example_finished after_delete.
Proof.
  exists after_delete. split; [|reflexivity].
  exists 20. intros fuel H. do 20 (destruct fuel as [|fuel]; [lia|]). vm_compute. reflexivity.
Qed.

Example C80_case :
  (exists it, stands_at as_candidate STANDARD example_heap example_dawg cat 2 3 it /\
     runs_into_ub (fun fuel => advance_query as_candidate after_delete STANDARD cat 2 fuel it)) /\
  (exists it, stands_at as_candidate STANDARD example_heap example_dawg cat 2 4 it /\
     runs_to (fun fuel => advance_query as_candidate after_delete STANDARD cat 2 fuel it) it) /\
  (exists it, runs_to (fun fuel => iter_after fuel example_heap example_dawg 0) it /\
     runs_into_ub (fun fuel => iter_next fuel after_delete it)) /\
  (exists it, runs_to (fun fuel => iter_after fuel example_heap example_dawg (length some_terms - 1)) it /\
     exists it', runs_to (fun fuel => iter_next fuel after_delete it) it').
Proof.
  pose proof (C80_query _ as_candidate STANDARD some_terms example_heap example_finished cat 2 [(sa, 2%N); (sab, 2%N); (scb, 2%N); (scab, 1%N)]) as Q.
  pose proof (C80_iterator some_terms some_terms example_heap example_finished) as I.
  change (b_dawg example_finished) with example_dawg in *.
  assert (ND : NoDup some_terms).
  { eapply StronglySorted_NoDup with (R := lex_lt); eauto using lex_irrefl.
    apply sorted_by_StronglySorted; [intros; eapply lex_trans; eauto|exact some_terms_strictly]. }
  split; [|split; [|split]].
  - destruct (Q 3 after_delete example_dictionary (example_limits 2 ltac:(discriminate)) example_yields example_deleted) as (it & S & X & _).
    exists it. split; [exact S|]. apply X. cbn [length some_terms]. lia.
  - destruct (Q 4 after_delete example_dictionary (example_limits 2 ltac:(discriminate)) example_yields example_deleted) as (it & S & _ & X).
    exists it. split; [exact S|]. apply X. cbn [length some_terms]. lia.
  - destruct (I 0 after_delete example_dictionary ND ltac:(tauto) example_deleted) as (it & S & X & _).
    exists it. split; [exact S|]. apply X. cbn [length some_terms]. lia.
  - destruct (I (length some_terms - 1) after_delete example_dictionary ND ltac:(tauto) example_deleted) as (it & S & _ & X).
    exists it. split; auto. destruct X as (it' & X & _); [vm_compute; lia|]. eauto.
Qed.

(** ** C52, continued: incrementing an iterator whose transducer is gone.

    If there is another result to come it is undefined behaviour, provided that
    the address of the transducer's intersection is not used again meanwhile (the
    model would not notice a dangling pointer then).  An iterator that is at the
    end stays there. *)
Lemma enough_for_all : forall A (P : A -> nat -> Prop) (l : list A),
  (forall a, In a l -> exists N, forall fuel, N <= fuel -> P a fuel) ->
  exists N, forall a, In a l -> forall fuel, N <= fuel -> P a fuel.
Proof.
  intros A P l. induction l as [|a l IH]; intros H.
  - exists 0. intros ? [].
  - destruct (H a (or_introl eq_refl)) as (N1 & H1). destruct IH as (N2 & H2). { intros; apply H; now right. }
    exists (Nat.max N1 N2). intros b [<-|I] fuel Hf; [apply H1; lia|apply H2; auto; lia].
Qed.

Definition stuck {R} (rt : result_type R) alg terms h (a : option (str * N * nat * query R)) (fuel : nat) : Prop :=
  match a with
  | None => True
  | Some (q, n, k, lit) =>
      (S k < length (scored alg terms q n) -> forall al order w base root os rest it, sound_allocators al ->
         (forall m, a_int al m <> o_ptr root) -> owns w base (os ++ rest) -> mget (w_int w) (o_ptr root) = None ->
         o_ptr root <> null -> related root os it lit -> lazy_advance rt fuel al order h alg q n w it = UB) /\
      (length (scored alg terms q n) <= k -> forall al order w root os it, related root os it lit ->
         lazy_advance rt fuel al order h alg q n w it = Ok (w, it))
  end.

Lemma all_stuck : forall R (rt : result_type R) alg terms h d a, dictionary terms h d -> right_place rt terms h d alg a ->
  exists N, forall fuel, N <= fuel -> stuck rt alg terms h a fuel.
Proof.
  intros R rt alg terms h d [[[[q n] k] lit]|] D RP; [|exists 0; intros; exact I]. destruct RP as (L & St).
  destruct (query_after_main _ rt alg terms h d q n k D L) as (lit' & St' & X).
  assert (lit = lit') as <- by (eapply runs_to_det; eauto). clear St'.
  destruct (query_after_main _ rt alg terms h d q n (S k) D L) as (lit1 & St1 & X1).
  pose proof St as (M & E).
  pose proof (after_settled rt h alg q n (d_root d) M k lit (E M (le_n _))) as (_ & _ & Se).
  assert (Over : length (scored alg terms q n) <= k -> forall fuel al order w root os it, related root os it lit ->
    lazy_advance rt fuel al order h alg q n w it = Ok (w, it)).
  { intros Le fuel al order w root os it Rel. apply nth_error_None in Le. rewrite Le in X.
    eapply advance_over; [apply X|apply Se, X|exact Rel]. }
  destruct (Nat.lt_ge_cases (S k) (length (scored alg terms q n))) as [Lt|Ge].
  - assert (Def : forall q n k, within_limits terms q n -> exists lit, stands_at rt alg h d q n k lit).
    { intros q0 n0 k0 L0. destruct (query_after_main _ rt alg terms h d q0 n0 k0 D L0) as (it & St0 & _). eauto. }
    destruct (RunProofs.step_stands Def St St1) as (f & Ad).
    apply nth_error_Some in Lt. destruct (nth_error (scored alg terms q n) (S k)); [|congruence]. destruct X1 as (X1 & _).
    destruct (GoneProofs.advance_gone Ad X1) as (N & G). exists N. intros fuel Hf. split; [|intros Le; exact (Over Le fuel)].
    intros _ al order w base root os rest it HA Fr Ho Hg Hn Rel. eapply G; eauto.
  - exists 0. intros fuel _. split; [lia|]. intros Le. exact (Over Le fuel).
Qed.

Theorem C52_increment : forall R (rt : result_type R) alg terms h d al order base commands,
  sound_allocators al -> dictionary terms h d ->
  (forall q n, In (Open q n) commands -> within_limits terms q n) ->
  exists enough, forall fuel, enough <= fuel ->
  exists w1 t w2 slots w3,
    make_transducer fuel al base (d_root d) = Ok (w1, t) /\
    run rt fuel al order h alg t commands w1 [] = Ok (w2, slots) /\
    destroy_transducer fuel w2 t = Ok w3 /\
    forall i q n k it results, nth_error slots i = Some (Some (q, n, k, it)) -> yields rt alg h d q n results ->
      (S k < length results -> forall al2, sound_allocators al2 -> (forall m, a_int al2 m <> t) ->
         lazy_advance rt fuel al2 order h alg q n w3 it = UB) /\
      (length results <= k -> forall al2, lazy_advance rt fuel al2 order h alg q n w3 it = Ok (w3, it)).
Proof.
  intros R rt alg terms h d al order base cmds HA D HL.
  assert (Def : forall q n k, within_limits terms q n -> exists lit, stands_at rt alg h d q n k lit).
  { intros q n k L. destruct (query_after_main _ rt alg terms h d q n k D L) as (it & St & _). eauto. }
  destruct (@run_ok R rt terms h d alg Def cmds [] (Forall_nil _) HL) as (N & K & abs & HP & S).
  destruct (enough_for_all _ (stuck rt alg terms h) abs) as (N2 & En).
  { intros a Ia. rewrite Forall_forall in HP. eapply all_stuck; eauto. }
  exists (N + N2 + K + 3). intros fuel Hf.
  destruct (@make_transducer_ok al base (d_root d) fuel HA ltac:(lia)) as (w1 & root & E1 & O1 & De & Ll).
  destruct (S al order fuel w1 root w1 [] 0 HA ltac:(lia) (owns_get O1 (or_introl eq_refl)) De)
    as (w2 & ss & E2 & es & -> & -> & HG & O2 & Bd).
  { exact (inv_start w1 root). }
  { lia. }
  assert (O2' : owns w2 base (root :: owned es)).
  { eapply owns_perm; [|exact (owns_trans O1 O2)]. apply Permutation_sym, Permutation_cons_append. }
  destruct (@delete_own w2 base root (owned es) fuel O2' ltac:(lia)) as (w3 & E3 & O3).
  exists w1, (o_ptr root), w2, (map (@e_slot R) es), w3.
  repeat (split; [assumption|]).
  assert (Rr : o_ptr root <> null) by apply (owns_get O1 (or_introl eq_refl)).
  assert (Gr : mget (w_int w3) (o_ptr root) = None).
  { pose proof (gone w2 base [root] (owned es) w3 root O2' (or_introl eq_refl) O3) as X. unfold mread in X.
    destruct (N.eqb_spec (o_ptr root) null); [contradiction|]. destruct (mget (w_int w3) (o_ptr root)); [discriminate|reflexivity]. }
  intros i q n k it results Ni Y.
  rewrite nth_error_map in Ni. destruct (nth_error es i) as [e|] eqn:Ne; [|discriminate]. injection Ni as Es.
  pose proof (nth_error_In _ _ Ne) as Ie. rewrite Forall_forall in HG. pose proof (HG e Ie) as Ge. unfold good in Ge. rewrite Es in Ge.
  destruct (e_abs e) as [[[[q' n'] k'] lit]|] eqn:Ea; [|destruct Ge]. destruct Ge as (Eq & Rel). injection Eq as <- <- <-.
  assert (Ia : In (e_abs e) (map (@e_abs R) es)) by (apply in_map; exact Ie). rewrite Ea in Ia.
  assert (L : within_limits terms q n).
  { rewrite Forall_forall in HP. apply (HP _ Ia). }
  pose proof (yields_det _ _ _ _ _ _ _ _ _ Y (query_all_main _ rt alg terms h d q n D L)) as ->. rewrite map_length.
  destruct (En _ Ia fuel ltac:(lia)) as (X1 & X2). split.
  - intros Lt al2 HA2 Fr. apply in_split in Ie. destruct Ie as (a & b & ->).
    apply (X1 Lt al2 order w3 base root (e_own e) (owned (a ++ b)) it); auto.
    eapply owns_perm; [apply owned_middle|exact O3].
  - intros Le al2. exact (X2 Le al2 order w3 root (e_own e) it Rel).
Qed.
Print Assumptions C52_increment.

(** An allocator that never hands out the transducer's address again, and a run
    whose iterator has more results to come. *)
Definition skipping {A : Type} (m : mem A) : ptr := N.succ (bump m).
Lemma mallocator_skipping {A : Type} : mallocator (@skipping A).
Proof.
  intros m. unfold skipping, bump. split; [unfold null; lia|]. destruct (mget m _) eqn:E; [exfalso|reflexivity].
  assert (I : In (N.succ (N.succ (fold_right N.max 0 (in_use m))))%N (in_use m)).
  { apply in_use_spec. rewrite E. discriminate. }
  assert (X : forall l p, In p l -> (p <= fold_right N.max 0 l)%N).
  { induction l as [|y l IH]; cbn; [tauto|]. intros p [->|H]; [lia|]. specialize (IH p H). lia. }
  apply X in I. lia.
Qed.
Definition sound_skipping : allocators := Allocators skipping skipping skipping.

Example C52_increment_case : sound_allocators sound_bump /\ dictionary some_terms example_heap example_dawg /\
  (forall q n, In (Open q n) example_commands -> within_limits some_terms q n) /\
  sound_allocators sound_skipping /\
  exists w1 t w2 it w3,
    make_transducer 60 sound_bump no_objects (d_root example_dawg) = Ok (w1, t) /\
    (forall m, a_int sound_skipping m <> t) /\
    run as_candidate 60 sound_bump left_first example_heap STANDARD t example_commands w1 [] =
      Ok (w2, [Some (cat, 2%N, 2, it); None]) /\
    destroy_transducer 60 w2 t = Ok w3 /\
    lazy_advance as_candidate 60 sound_skipping left_first example_heap STANDARD cat 2 w3 it = UB.
Proof.
  split; [exact sound_allocators_bump|]. split; [exact example_dictionary|]. split; [exact (proj1 (proj2 (proj2 C50_case)))|].
  split; [split; [|split]; apply mallocator_skipping|].
  eexists _, _, _, _, _. split; [vm_compute; reflexivity|]. split; [intros m; unfold sound_skipping, skipping, bump; cbn; lia|].
  split; [vm_compute; reflexivity|]. split; [vm_compute; reflexivity|]. vm_compute. reflexivity.
Qed.

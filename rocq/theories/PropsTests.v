(** * Property C78: the project's own tests, for every input. *)
From Coq Require Import Sorting.Permutation.
From Verif Require Import Base Spec ModelDistance ModelTransducer ModelDawg ModelState ModelIterator ModelQuery ModelSerial ModelWire ModelTests.
From Verif Require Import SpecDawg SpecQuery SpecWire SpecTests DistProofs DawgProofs PropsDawg PropsQuery PropsSerial PropsWire PropsState
  TestsState TestsNode TestsDawg.
From Verif Require AlignProofs SpecSnapshot.
Local Open Scope nat_scope.

(** ** test_state.cpp, test_merge.cpp, test_comparators.cpp: all lists of positions,
    all allocators, all orders of addresses; every position is freed again. *)
Theorem C78_positions : forall alloc order m triples, mallocator alloc ->
  let back m' := same_memory m' m in
  passes (fun fuel => initializes_positions_correctly fuel alloc m triples) back /\
  passes (fun fuel => sorts_positions_correctly fuel alloc order m triples) back /\
  passes (fun fuel => adds_to_tail_of_positions fuel alloc m triples) back /\
  passes (fun fuel => correctly_inserts_positions_after_others fuel alloc m triples) back /\
  passes (fun fuel => correctly_removes_positions fuel alloc m triples) back /\
  passes (fun fuel => iterates_over_positions fuel alloc m triples) back /\
  passes (fun fuel => inserts_positions_in_the_expected_location fuel alloc m triples) back /\
  passes (fun fuel => correctly_compares_positions fuel alloc m triples) back.
Proof.
  intros alloc order m xs A back. subst back.
  repeat split; exists (length xs + 4); intros fuel Hf;
    [apply initializes_ok|apply sorts_ok|apply adds_ok|apply inserts_ok|apply removes_ok|apply iterates_ok|apply merge_inserts_ok|apply compares_ok];
    auto; lia.
Qed.
Print Assumptions C78_positions.

Definition some_triples : list position := [Pos 3 1 true; Pos 1 0 false; Pos 1 2 true; Pos 0 0 false].

Example C78_case_positions : mallocator (@PropsState.bump cell) /\
  exists m, iterates_over_positions 20 PropsState.bump [] some_triples = Ok (Passed m) /\ mget m 1%N = None.
Proof. split; [exact mallocator_bump|]. eexists. split; [vm_compute; reflexivity|]. vm_compute. reflexivity. Qed.

(** ** test_transition.cpp, test_prefix.cpp, test_dawg_node.cpp: all strings, all
    sets of labels.  The tests of nodes leave the targets of their edges behind, one
    for every label. *)
Theorem C78_nodes : forall alloc palloc h m, allocator alloc -> mallocator palloc ->
  passes (fun fuel => has_proper_copy_and_move_constructors fuel alloc h) (fun h' => same_heap h' h) /\
  passes (fun fuel => has_correct_getters fuel alloc h) (fun h' => same_heap h' h) /\
  (forall term, passes (fun fuel => returns_original_string fuel alloc palloc h m term)
     (fun '(h', m') => same_heap h' h /\ same_memory m' m)) /\
  (forall xs f t ys f' t', NoDup xs -> NoDup ys ->
     passes (fun fuel => is_comparable fuel alloc h xs f t ys f' t') (fun h' => but_for (length xs + length ys) h' h)) /\
  (forall labels f, NoDup labels ->
     passes (fun fuel => has_equivalent_constructors fuel alloc h labels f) (fun h' => but_for (length labels + length labels) h' h) /\
     passes (fun _ => can_have_edges_added alloc h labels f) (fun h' => but_for (length labels) h' h)).
Proof.
  intros alloc palloc h m A PA.
  assert (Lost : forall k h', lost k h' h -> but_for k h' h).
  { intros k h' (l & L & N & I & O). exists (map fst l). split; [now rewrite map_length|]. split; [exact N|]. split; [|exact O].
    intros p Hp. apply in_map_iff in Hp. destruct Hp as ([q n] & E & Hp). cbn in E. subst q. destruct (I _ _ Hp) as (_ & H2 & H3).
    unfold allocated. rewrite H2, H3. split; [discriminate|]. intros X. now apply X. }
  split; [exists 1; intros fuel Hf; apply copies_ok; auto; lia|].
  split; [exists 1; intros fuel Hf; apply getters_ok; auto; lia|].
  split.
  { intros term. exists (S (length term)). intros fuel Hf.
    destruct (original_ok (fuel := fuel) h m (term := term) A PA) as (h' & m' & E & H); [lia|]. exists (h', m'). auto. }
  split.
  { intros xs f t ys f' t' Nx Ny. exists 2. intros fuel Hf.
    destruct (comparable_ok (fuel := fuel) h f t f' t' A Nx Ny Hf) as (h' & E & H). eauto. }
  intros labels f N. split.
  - exists 2. intros fuel Hf. destruct (equivalent_ok (fuel := fuel) h f A N Hf) as (h' & E & H). eauto.
  - exists 0. intros fuel _. destruct (edges_ok h f A N) as (h' & E & H). eauto.
Qed.
Print Assumptions C78_nodes.

Example C78_case_nodes : NoDup (lit "bad") /\ NoDup (lit "adb") /\
  (exists h, is_comparable 5 SpecDawg.bump [] (lit "bad") true false (lit "adb") true false = Ok (Passed h) /\ length (live h) = 6) /\
  (exists h, is_comparable 5 SpecDawg.bump [] (lit "bad") true false (lit "adb") true true = Ok (Passed h)) /\
  exists h m, returns_original_string 5 SpecDawg.bump PropsState.bump [] [] (lit "cab") = Ok (Passed (h, m)) /\ live h = [].
Proof.
  split; [repeat constructor; cbn; intuition discriminate|]. split; [repeat constructor; cbn; intuition discriminate|].
  split; [eexists; split; vm_compute; reflexivity|]. split; [eexists; vm_compute; reflexivity|].
  eexists _, _. split; vm_compute; reflexivity.
Qed.

(** ** test_sorted_dawg.cpp: all sets of strings of admissible lengths.  The loop that
    shuffles the terms ends when one order is not ascending; there is one if there are
    two terms. *)
Theorem C78_sorted_dawg : forall alloc h terms, allocator alloc -> strictly_ascending terms ->
  (forall shuffles, Exists (fun s => ~ ascending s) shuffles ->
     passes (fun fuel => rejects_unsorted_terms fuel alloc h terms shuffles) (fun h' => same_heap h' h)) /\
  (1 < length terms -> Permutation (rev terms) terms /\ ~ ascending (rev terms)) /\
  (forall to_ignore, (N.of_nat (length terms) < 2 ^ 64)%N ->
     (forall t, In t terms \/ In t to_ignore -> (N.of_nat (length t) <= INT_MAX)%N) ->
     passes (fun fuel => contains_expected_terms fuel alloc h terms to_ignore) (fun h' => same_heap h' h)).
Proof.
  intros alloc h terms A As. split; [|split].
  - intros shuffles X. destruct (rejects_ok alloc h terms shuffles A As X) as (h' & (B & E) & S). exists B. eauto.
  - intros L. split; [symmetry; apply Permutation_rev|]. destruct terms as [|a [|b terms]]; try (cbn in L; lia).
    assert (Lt : lex_lt a b) by now inversion As. cbn [rev]. intros X. rewrite <- app_assoc in X. cbn [app] in X.
    induction (rev terms) as [|c l IH]; cbn [app] in X.
    + inversion X as [| |? ? ? Le]; subst. apply lex_le_not_lt in Le. contradiction.
    + apply IH. destruct l; inversion X; auto.
  - intros ignored Ln Lt. destruct (expected_ok alloc h terms ignored A As Ln Lt) as (h' & (B & E) & S). exists B. eauto.
Qed.
Print Assumptions C78_sorted_dawg.

Example C78_case_sorted_dawg : strictly_ascending some_terms /\
  (exists h, rejects_unsorted_terms 20 SpecDawg.bump [] some_terms [some_terms; rev some_terms] = Ok (Passed h) /\ live h = []) /\
  exists h, contains_expected_terms 20 SpecDawg.bump [] some_terms [sab; cat] = Ok (Passed h) /\ live h = [].
Proof.
  split; [unfold some_terms; repeat constructor; apply BuildProofs2.str_ltb_lex; reflexivity|].
  split; eexists; split; vm_compute; reflexivity.
Qed.

(** ** test_transducer.cpp: all runs of tests, for all sets of terms, sets of queries
    and maximum distances, with one distance object. *)
Theorem C78_transducer : forall alloc alg h tests, allocator alloc ->
  (forall terms queries n, In (terms, queries, n) tests ->
     strictly_ascending terms /\ forall q, In q queries -> within_limits terms q n) ->
  passes (fun fuel => test_transducers fuel alloc alg h [] tests) (fun '(h', _) => same_heap h' h).
Proof.
  intros alloc alg h tests A L. destruct (test_transducers_ok alloc alg tests h [] A L (memo_ok_nil alg)) as (h' & m' & (B & E) & S).
  exists B. intros fuel Hf. exists (h', m'). auto.
Qed.
Print Assumptions C78_transducer.

Example C78_case_transducer : forall alg, exists h m,
  test_transducers 40 SpecDawg.bump alg [] [] [(some_terms, [cat; sab], 2%N); ([cat; scb], some_terms, 1%N)] = Ok (Passed (h, m)) /\ live h = [].
Proof. intros []; eexists _, _; split; vm_compute; reflexivity. Qed.

Example C78_case_limits : forall terms queries n, In (terms, queries, n) [(some_terms, [cat; sab], 2%N)] ->
  strictly_ascending terms /\ forall q, In q queries -> within_limits terms q n.
Proof.
  intros terms queries n [E|[]]. injection E as <- <- <-. split; [exact (proj1 C78_case_sorted_dawg)|].
  destruct (example_limits 2 ltac:(discriminate)) as (_ & L2 & L3).
  intros q [<-|[<-|[]]]; (split; [apply manageable_short; vm_compute; discriminate|split; [exact L2|exact L3]]).
Qed.

(** ** test_{standard,transposition,merge_and_split}_distance.cpp: all runs of tests
    with one object, whatever the order of evaluation, except the triangle inequality
    for transpositions. *)
Theorem C78_distances : forall alg tests,
  (alg = TRANSPOSITION -> forall o1 o2 x y z, ~ In (Triangle_inequality o1 o2 x y z) tests) ->
  exists m, run (distance_tests_hold alg tests) [] = Ok (map (fun _ => true) tests, m).
Proof.
  intros alg tests H. destruct (distance_tests_good alg tests H) as (k & G).
  destruct (good_run _ _ _ _ [] G (memo_ok_nil alg)) as (bs & m & E & -> & _). eauto.
Qed.
Print Assumptions C78_distances.

(** TranspositionDistance: the test "triangle inequality" fails for some strings. *)
Theorem C78_triangle_test_refuted : exists x y z, forall o1 o2, exists m,
  run (distance_tests_hold TRANSPOSITION [Triangle_inequality o1 o2 x y z]) [] = Ok ([false], m).
Proof. exists (lit "CA"), (lit "ABC"), (lit "AC"). intros [] []; eexists; vm_compute; reflexivity. Qed.
Print Assumptions C78_triangle_test_refuted.

Example C78_case_distances : exists m, run (distance_tests_hold MERGE_AND_SPLIT
  [Non_negativity cat sab; Indiscernible_identity cat cat; Symmetry false cat scab;
   Triangle_inequality true false cat scab sab; Left_and_right_invariance false true cat sab scb]) [] = Ok ([true; true; true; true; true], m).
Proof. eexists. vm_compute. reflexivity. Qed.

(** ** test_symmetric_pair.cpp: all strings of admissible lengths, except that the hash
    codes of different pairs may be equal. *)
Theorem C78_pairs : forall foo bar baz, (N.of_nat (length foo) <= INT_MAX)%N -> (N.of_nat (length bar) <= INT_MAX)%N ->
  (N.of_nat (length baz) <= INT_MAX)%N ->
  exists hash1 hash2 hash3, pairs_are_comparable foo bar baz = Ok (Passed (hash1, hash2, hash3)) /\
    (bar = baz \/ (hash1 <> hash3 /\ hash2 <> hash3) <-> pair_is_comparable foo bar baz = Ok (Passed tt)).
Proof.
  intros foo bar baz L1 L2 L3. destruct (pairs_ok foo bar baz L1 L2 L3) as ([[c1 c2] c3] & E). exists c1, c2, c3. split; auto.
  unfold pair_is_comparable. rewrite E. cbn [followed_by rbind]. destruct (str_eqb bar baz) eqn:Eb; cbn [negb].
  - apply str_eqb_eq in Eb. tauto.
  - assert (Ne : bar <> baz). { intros ->. rewrite (proj2 (str_eqb_eq baz baz) eq_refl) in Eb. discriminate. }
    destruct (N.eqb_spec c1 c3); cbn [negb RC_ASSERT]; [split; [tauto|discriminate]|].
    destruct (N.eqb_spec c2 c3); cbn [negb RC_ASSERT]; [split; [tauto|discriminate]|]. tauto.
Qed.
Print Assumptions C78_pairs.

(** The test fails for some strings. *)
Theorem C78_pair_hash_test_refuted : exists foo bar baz,
  length foo <= 16 /\ length bar <= 16 /\ length baz <= 16 /\ pair_is_comparable foo bar baz = Ok Failed.
Proof.
  exists [], (lit "universalautomat"), (lit "wgzmucmmnsRyBfkc"). split; [cbn; lia|]. split; [cbn; lia|]. split; [cbn; lia|].
  vm_compute. reflexivity.
Qed.
Print Assumptions C78_pair_hash_test_refuted.

Example C78_case_pairs : pair_is_comparable cat sab scab = Ok (Passed tt).
Proof. vm_compute. reflexivity. Qed.

(** ** test_protobuf_serializer.cpp: all sets of strings whose message has an
    admissible length, if the file can be written. *)
Theorem C78_serializer : forall alloc size split room h terms h1 b m, allocator alloc -> strictly_ascending terms ->
  runs_to (fun fuel => sorted_dawg fuel alloc h terms) (h1, Some b) -> addresses_fit h1 ->
  runs_to (fun fuel => to_protobuf fuel h1 (b_dawg b)) m -> not_too_long m -> splitter split ->
  (N.of_nat (length (encode m)) <= room)%N ->
  passes (fun fuel => restores_dawg fuel alloc size split true room h terms) (fun h' => same_heap h' h).
Proof.
  intros alloc size split room h terms h1 b m A As R Af Rm Lm Sp Ro.
  destruct (restores_ok alloc size split room h terms h1 b m A R Af Rm Lm Sp Ro) as (h' & (B & E) & S). exists B. eauto.
Qed.
Print Assumptions C78_serializer.

Example C78_case_serializer :
  (exists b, runs_to (fun fuel => sorted_dawg fuel SpecDawg.bump [] some_terms) (example_heap, Some b) /\
     runs_to (fun fuel => to_protobuf fuel example_heap (b_dawg b)) example_message) /\
  addresses_fit example_heap /\ not_too_long example_message /\ splitter in_threes /\
  (exists h, restores_dawg 20 SpecDawg.bump 8 in_threes true 100 [] some_terms = Ok (Passed h) /\ live h = []) /\
  restores_dawg 20 SpecDawg.bump 8 in_threes true 10 [] some_terms = Ok Failed.
Proof.
  destruct C54_case as (C1 & C2 & C3 & _). split.
  { eexists. split; [exact example_built|]. exists 10. intros fuel H. do 10 (destruct fuel as [|fuel]; [lia|]). vm_compute. reflexivity. }
  split; [exact C1|]. split; [exact C2|]. split; [exact C3|]. split; [eexists; split; vm_compute; reflexivity|]. vm_compute. reflexivity.
Qed.

(** ** What the tests notice.  Whatever memory and dictionary the loops of
    test_transducer.cpp are let loose on, also if they were made by a program with
    mistakes: if they pass, the queries yield exactly the terms within the distance,
    each once and with its distance. *)
Lemma tick_off_passed : forall listed left rest, NoDup left -> tick_off listed left = Ok (Passed rest) ->
  NoDup listed /\ NoDup rest /\ forall w, In w left <-> In w listed \/ In w rest.
Proof.
  induction listed as [|t listed IH]; intros left rest N E; cbn [tick_off] in E.
  - injection E as <-. split; [constructor|]. split; auto. intros w. cbn. tauto.
  - destruct (has t left) eqn:Ht; cbn [RC_ASSERT] in E; [|discriminate]. apply has_In in Ht.
    destruct (IH _ _ (erase_NoDup t left N) E) as (N1 & N2 & I). split; [|split; auto].
    + constructor; auto. intros X. destruct (proj1 (erase_In t left t) (proj2 (I t) (or_introl X))) as (_ & Y). congruence.
    + intros w. cbn [In]. destruct (list_eq_dec Ascii.ascii_dec t w) as [->|Ne]; [tauto|].
      specialize (I w). rewrite erase_In in I. tauto.
Qed.

Lemma candidates_passed : forall alg q results left m m', memo_ok alg m -> NoDup left ->
  expect_candidates alg q results left m = Ok (Passed m') ->
  memo_ok alg m' /\ NoDup (map fst results) /\ (forall w, In w left <-> In w (map fst results)) /\
  forall w k, In (w, k) results -> k = N.of_nat (AlignProofs.dst alg q w).
Proof.
  intros alg q. induction results as [|[t k] results IH]; intros left m m' Hm N E; cbn [expect_candidates] in E.
  - destruct left as [|x left]; cbn in E; [|discriminate]. injection E as <-. split; auto. split; [constructor|]. split; [cbn; tauto|intros ? ? []].
  - destruct (has t left) eqn:Ht; cbn [RC_ASSERT] in E; [|discriminate]. apply has_In in Ht.
    destruct (good_run _ _ _ _ m (between_good alg t q) Hm) as (k' & m1 & E1 & -> & Hm1). rewrite E1 in E. cbn [rbind] in E.
    destruct (N.eqb_spec k (N.of_nat (AlignProofs.dst alg t q))) as [Ek|]; cbn [RC_ASSERT] in E; [|discriminate].
    destruct (IH _ _ _ Hm1 (erase_NoDup t left N) E) as (Hm' & N1 & I & K). split; auto. cbn [map fst In]. split; [|split].
    + constructor; auto. intros X. destruct (proj1 (erase_In t left t) (proj2 (I t) X)) as (_ & Y). congruence.
    + intros w. specialize (I w). rewrite erase_In in I. destruct (list_eq_dec Ascii.ascii_dec t w) as [->|Ne]; tauto.
    + intros w k0 [X|X]; [injection X as <- <-; rewrite (AlignProofs.dst_sym alg q t); auto|auto].
Qed.

Lemma NoDup_close : forall alg n q terms, NoDup terms -> NoDup (close alg n q terms).
Proof. intros. now apply NoDup_filter. Qed.

Theorem C78_notices : forall fuel alg h d terms queries n expected m1 m2, NoDup terms ->
  all_close_terms alg n queries terms [] = Ok (expected, m1) ->
  expect_all_candidates fuel alg h d n expected m1 = Ok (Passed m2) ->
  expect_all_terms fuel alg h d n expected = Ok (Passed tt) ->
  forall q, In q queries -> exists results strings,
    query_all as_candidate fuel h (new_transducer alg (d_root d)) q n = Ok results /\
    query_all as_string fuel h (new_transducer alg (d_root d)) q n = Ok strings /\
    SpecSnapshot.lists alg q n (fun w => In w terms) results /\ Permutation strings (map fst results).
Proof.
  intros fuel alg h d terms queries n expected m1 m2 N Ec E1 E2.
  destruct (all_close_ok alg n terms queries [] (memo_ok_nil alg)) as (m1' & Ec' & Hm). rewrite Ec in Ec'. injection Ec' as -> <-.
  clear Ec. revert m1 Hm E1. induction queries as [|q0 queries IH]; intros m1 Hm E1 q Iq; [destruct Iq|].
  cbn [map expect_all_candidates expect_all_terms] in E1, E2.
  destruct (query_all as_candidate fuel h (new_transducer alg (d_root d)) q0 n) as [results| |] eqn:Q1; try discriminate. cbn [rbind] in E1.
  destruct (query_all as_string fuel h (new_transducer alg (d_root d)) q0 n) as [strings| |] eqn:Q2; try discriminate. cbn [rbind] in E2.
  unfold followed_by in E1, E2.
  destruct (expect_candidates alg q0 results (close alg n q0 terms) m1) as [[m'|]| |] eqn:C1; try discriminate. cbn [rbind] in E1.
  destruct (tick_off strings (close alg n q0 terms)) as [[rest|]| |] eqn:C2; try discriminate. cbn [rbind] in E2.
  destruct rest as [|x rest]; cbn [nothing RC_ASSERT] in E2; [|discriminate].
  pose proof (NoDup_close alg n q0 terms N) as Nc.
  destruct (candidates_passed _ _ _ _ _ _ Hm Nc C1) as (Hm' & N1 & I1 & K1).
  destruct (tick_off_passed _ _ _ Nc C2) as (N2 & _ & I2).
  destruct Iq as [<-|Iq]; [|exact (IH E2 m' Hm' E1 q Iq)].
  exists results, strings. split; [exact Q1|]. split; [exact Q2|]. split.
  - split; [exact N1|]. intros w k. rewrite AlignProofs.edit_distance_dst.
    assert (C : In w (map fst results) <-> In w terms /\ (N.of_nat (AlignProofs.dst alg q0 w) <= n)%N).
    { rewrite <- I1. unfold close. rewrite filter_In, N.leb_le, (AlignProofs.dst_sym alg w q0). reflexivity. }
    split.
    + intros I. pose proof (K1 w k I) as ->. rewrite Nat2N.id. apply (in_map fst) in I. apply C in I. cbn [fst] in I. tauto.
    + intros (It & Ek & Le). assert (Ek' : k = N.of_nat (AlignProofs.dst alg q0 w)) by lia. subst k.
      pose proof (proj2 C (conj It Le)) as X. apply in_map_iff in X. destruct X as ([w' k'] & Ew & X). cbn [fst] in Ew. subst w'.
      rewrite (K1 w k' X) in X. exact X.
  - apply NoDup_Permutation; auto. intros w. rewrite <- I1. specialize (I2 w). cbn [In] in I2. tauto.
Qed.
Print Assumptions C78_notices.

(** The same for test_sorted_dawg.cpp: what iterating lists are the terms, each once. *)
Theorem C78_notices_terms : forall listed terms left, NoDup terms ->
  tick_off listed terms = Ok (Passed left) -> nothing left = true -> Permutation listed terms.
Proof.
  intros listed terms left N E L. destruct left; [|discriminate]. destruct (tick_off_passed _ _ _ N E) as (N1 & _ & I).
  apply NoDup_Permutation; auto. intros w. specialize (I w). cbn [In] in I. tauto.
Qed.
Print Assumptions C78_notices_terms.

(** A dictionary with the terms {a, ab, cab, cb} passes; if "b" is expected as well, it
    does not. *)
Example C78_notices_case : exists expected m1 m2,
  NoDup some_terms /\ all_close_terms STANDARD 2 [cat; sab] some_terms [] = Ok (expected, m1) /\
  expect_all_candidates 40 STANDARD example_heap example_dawg 2 expected m1 = Ok (Passed m2) /\
  expect_all_terms 40 STANDARD example_heap example_dawg 2 expected = Ok (Passed tt) /\
  exists expected' m1', all_close_terms STANDARD 2 [cat; sab] (sb :: some_terms) [] = Ok (expected', m1') /\
    expect_all_candidates 40 STANDARD example_heap example_dawg 2 expected' m1' = Ok Failed /\
    expect_all_terms 40 STANDARD example_heap example_dawg 2 expected' = Ok Failed.
Proof.
  eexists _, _, _. split; [repeat constructor; cbn; intuition discriminate|]. split; [vm_compute; reflexivity|].
  split; [vm_compute; reflexivity|]. split; [vm_compute; reflexivity|]. eexists _, _. split; [vm_compute; reflexivity|].
  split; vm_compute; reflexivity.
Qed.

(** * Properties C28-C40: queries. *)
From Coq Require Import Sorting.Sorted Sorting.Permutation.
From Verif Require Import Base Spec ModelTransducer ModelDawg ModelQuery SpecDawg SpecQuery SpecDistance
  AlignProofs DistFacts PropsDawg TreeProofs HeapProofs IterProofs DawgProofs QueryProofs QueryFacts.
Local Open Scope nat_scope.

Lemma render_candidate : forall l, map (render as_candidate) l = l.
Proof. intros. rewrite <- (map_id l) at 2. apply map_ext. intros [w d]. reflexivity. Qed.

Lemma yields_det : forall R (rt : result_type R) alg h d q n l1 l2,
  yields rt alg h d q n l1 -> yields rt alg h d q n l2 -> l1 = l2.
Proof. intros. eapply runs_to_det; eauto. Qed.

Lemma candidates_main : forall alg terms h d q n, dictionary terms h d -> within_limits terms q n ->
  yields as_candidate alg h d q n (scored alg terms q n).
Proof.
  intros. pose proof (query_all_main _ as_candidate alg terms h d q n H H0) as Y.
  rewrite render_candidate in Y. exact Y.
Qed.

(** A dictionary for the examples: "a", "ab", "cab", "cb", asked for "cat". *)
Definition cat := lit "cat".

Definition example_heap : heap := Eval vm_compute in
  match sorted_dawg 20 bump [] some_terms with Ok (h, _) => h | _ => [] end.
Definition example_builder : option builder := Eval vm_compute in
  match sorted_dawg 20 bump [] some_terms with Ok (_, r) => r | _ => None end.
Definition example_dawg : dawg := Eval vm_compute in
  match example_builder with Some b => b_dawg b | None => Dawg null 0 end.

Example example_built : runs_to (fun fuel => sorted_dawg fuel bump [] some_terms) (example_heap, example_builder).
Proof. exists 20. intros fuel H. do 20 (destruct fuel as [|fuel]; [lia|]). vm_compute. reflexivity. Qed.

Example example_dictionary : dictionary some_terms example_heap example_dawg.
Proof.
  pose proof example_built as R. unfold example_builder in R.
  exact (dictionary_sorted _ _ _ _ _ bump_allocator R).
Qed.

Example example_limits : forall n, (n <= SIZE_MAX)%N -> within_limits some_terms cat n.
Proof.
  intros n H. split; [apply manageable_short; vm_compute; discriminate|]. split; auto.
  intros t I. repeat (destruct I as [<-|I]; [reflexivity|]). destruct I.
Qed.

(** Runs the model. *)
Example example_run :
  query_all as_candidate 40 example_heap (new_transducer STANDARD (d_root example_dawg)) cat 2 =
    Ok [(sa, 2%N); (sab, 2%N); (scb, 2%N); (scab, 1%N)] /\
  query_all as_string 40 example_heap (new_transducer TRANSPOSITION (d_root example_dawg)) cat 1 = Ok [scab] /\
  query_all as_candidate 40 example_heap (new_transducer MERGE_AND_SPLIT (d_root example_dawg)) cat SIZE_MAX =
    Ok [(sa, 2%N); (sab, 2%N); (scb, 1%N); (scab, 1%N)].
Proof. run. run. vm_compute. reflexivity. Qed.

Example example_yields : yields as_candidate STANDARD example_heap example_dawg cat 2
  [(sa, 2%N); (sab, 2%N); (scb, 2%N); (scab, 1%N)].
Proof. exact (candidates_main STANDARD _ _ _ _ _ example_dictionary (example_limits 2 ltac:(discriminate))). Qed.

(** ** C28-C30: a query yields exactly the terms within the distance, with their
    distances. *)
Theorem C28_standard_query : forall terms h d q n, dictionary terms h d -> within_limits terms q n ->
  exists results, yields as_candidate STANDARD h d q n results /\
    forall w k, In (w, k) results <->
      In w terms /\ least (fun m => edits STANDARD m q w) (N.to_nat k) /\ (k <= n)%N.
Proof.
  intros terms h d q n D L. exists (scored STANDARD terms q n). split; [apply candidates_main; auto|].
  intros. apply (scored_In STANDARD).
Qed.
Print Assumptions C28_standard_query.

Example C28_case : dictionary some_terms example_heap example_dawg /\ within_limits some_terms cat 2 /\
  yields as_candidate STANDARD example_heap example_dawg cat 2
    [(sa, 2%N); (sab, 2%N); (scb, 2%N); (scab, 1%N)].
Proof.
  split; [exact example_dictionary|]. split; [exact (example_limits 2 ltac:(discriminate))|].
  exact (candidates_main STANDARD _ _ _ _ _ example_dictionary (example_limits 2 ltac:(discriminate))).
Qed.

Theorem C29_transposition_query : forall terms h d q n, dictionary terms h d -> within_limits terms q n ->
  exists results, yields as_candidate TRANSPOSITION h d q n results /\
    forall w k, In (w, k) results <->
      In w terms /\ least (fun m => aligned TRANSPOSITION m q w) (N.to_nat k) /\ (k <= n)%N.
Proof.
  intros terms h d q n D L. exists (scored TRANSPOSITION terms q n). split; [apply candidates_main; auto|].
  intros. apply (scored_In TRANSPOSITION).
Qed.
Print Assumptions C29_transposition_query.

Example C29_case : dictionary some_terms example_heap example_dawg /\ within_limits some_terms cat 2 /\
  yields as_candidate TRANSPOSITION example_heap example_dawg cat 2
    [(sa, 2%N); (sab, 2%N); (scb, 2%N); (scab, 1%N)].
Proof.
  split; [exact example_dictionary|]. split; [exact (example_limits 2 ltac:(discriminate))|].
  exact (candidates_main TRANSPOSITION _ _ _ _ _ example_dictionary (example_limits 2 ltac:(discriminate))).
Qed.

Theorem C30_merge_and_split_query : forall terms h d q n, dictionary terms h d -> within_limits terms q n ->
  exists results, yields as_candidate MERGE_AND_SPLIT h d q n results /\
    forall w k, In (w, k) results <->
      In w terms /\ least (fun m => edits MERGE_AND_SPLIT m q w) (N.to_nat k) /\ (k <= n)%N.
Proof.
  intros terms h d q n D L. exists (scored MERGE_AND_SPLIT terms q n). split; [apply candidates_main; auto|].
  intros. apply (scored_In MERGE_AND_SPLIT).
Qed.
Print Assumptions C30_merge_and_split_query.

Example C30_case : dictionary some_terms example_heap example_dawg /\ within_limits some_terms cat 2 /\
  yields as_candidate MERGE_AND_SPLIT example_heap example_dawg cat 2
    [(sa, 2%N); (sab, 2%N); (scb, 1%N); (scab, 1%N)].
Proof.
  split; [exact example_dictionary|]. split; [exact (example_limits 2 ltac:(discriminate))|].
  exact (candidates_main MERGE_AND_SPLIT _ _ _ _ _ example_dictionary (example_limits 2 ltac:(discriminate))).
Qed.

(** ** C31: candidates come once each, in dictionary iteration order. *)
Theorem C31_order : forall alg terms h d q n results, dictionary terms h d -> within_limits terms q n ->
  yields as_candidate alg h d q n results ->
  sorted_by shortlex_lt (map fst results) /\ NoDup (map fst results) /\
  (strictly_ascending terms -> (N.of_nat (length terms) < 2 ^ 64)%N ->
   exists listed near, runs_to (fun fuel => iterate fuel h d) listed /\
     (forall w, near w = true <-> exists k, edit_distance alg q w k /\ (N.of_nat k <= n)%N) /\
     map fst results = filter near listed).
Proof.
  intros alg terms h d q n results D L Y.
  pose proof (yields_det _ _ _ _ _ _ _ _ _ Y (candidates_main _ _ _ _ _ _ D L)) as ->.
  rewrite scored_fst. split; [apply StronglySorted_sorted_by, found_sorted|].
  split; [eapply StronglySorted_NoDup; eauto using shortlex_irrefl, found_sorted|].
  intros St Len. destruct (dictionary_unf _ _ _ D) as (U & _ & S).
  exists (words (trie terms)), (fun w => (N.of_nat (dst alg q w) <=? n)%N).
  split; [apply iterate_words; auto|]. split; [|reflexivity].
  intros w. rewrite N.leb_le. split.
  - intros H. exists (dst alg q w). split; auto. apply edit_distance_dst; auto.
  - intros (k & E & H). apply edit_distance_dst in E. subst. auto.
Qed.
Print Assumptions C31_order.

Example C31_case : sorted_by shortlex_lt [sa; sab; scb; scab] /\ strictly_ascending some_terms /\
  iterate 40 example_heap example_dawg = Ok [sa; sab; scb; scab].
Proof.
  split; [exact (proj1 (C31_order _ _ _ _ _ _ _ example_dictionary (example_limits 2 ltac:(discriminate)) example_yields))|].
  split; [exact some_terms_strictly|]. vm_compute. reflexivity.
Qed.

(** ** C32: the distance reported is the one the Distance classes compute. *)
Theorem C32_agrees_with_distance : forall alg terms h d q n results w k,
  dictionary terms h d -> within_limits terms q n ->
  yields as_candidate alg h d q n results -> In (w, k) results ->
  returns alg w q (N.to_nat k) /\ returns alg q w (N.to_nat k).
Proof.
  intros alg terms h d q n results w k D L Y I.
  pose proof (yields_det _ _ _ _ _ _ _ _ _ Y (candidates_main _ _ _ _ _ _ D L)) as ->.
  apply scored_In in I. destruct I as (_ & E & _). apply edit_distance_dst in E.
  rewrite !returns_iff, E. split; auto using dst_sym.
Qed.
Print Assumptions C32_agrees_with_distance.

Example C32_case : returns STANDARD scab cat 1.
Proof.
  refine (proj1 (C32_agrees_with_distance _ _ _ _ _ _ _ scab 1 example_dictionary (example_limits 2 ltac:(discriminate)) example_yields _)).
  do 3 right. left. reflexivity.
Qed.

(** ** C33: string results are the candidates without their distances. *)
Theorem C33_strings : forall alg terms h d q n results, dictionary terms h d -> within_limits terms q n ->
  yields as_candidate alg h d q n results -> yields as_string alg h d q n (map fst results).
Proof.
  intros alg terms h d q n results D L Y.
  pose proof (yields_det _ _ _ _ _ _ _ _ _ Y (candidates_main _ _ _ _ _ _ D L)) as ->.
  exact (query_all_main _ as_string alg terms h d q n D L).
Qed.
Print Assumptions C33_strings.

Example C33_case : yields as_string STANDARD example_heap example_dawg cat 2 [sa; sab; scb; scab].
Proof. exact (C33_strings _ _ _ _ _ _ _ example_dictionary (example_limits 2 ltac:(discriminate)) example_yields). Qed.

(** ** C34: queries do not disturb each other.  Iterating reads the dictionary
    and the transducer and writes neither (the iterator's operations return no
    memory in the model); whatever queries are open and in whatever order they
    are incremented, each stands where it would stand alone. *)
Lemma nth_error_same : forall A (l l' : list A), (forall i, nth_error l i = nth_error l' i) -> l = l'.
Proof.
  induction l as [|a l IH]; intros [|b l'] H; auto.
  - discriminate (H 0).
  - discriminate (H 0).
  - pose proof (H 0) as H0. injection H0 as ->. f_equal. apply IH. intros i. exact (H (S i)).
Qed.

Lemma bump_session_ok : forall R (rt : result_type R) h t fuel ss i s it',
  nth_error ss i = Some s -> advance_query rt h (tr_alg t) (fst (fst s)) (snd (fst s)) fuel (snd s) = Ok it' ->
  exists ss', bump_session rt h t fuel ss i = Ok ss' /\ length ss' = length ss /\
    nth_error ss' i = Some (fst s, it') /\ forall j, j <> i -> nth_error ss' j = nth_error ss j.
Proof.
  intros R rt h t fuel. induction ss as [|[[q n] it] ss IH]; intros [|i] s it' N E; cbn in N; try discriminate.
  - injection N as <-. cbn in E. cbn. rewrite E. cbn. eexists. split; [reflexivity|]. split; auto. split; auto.
    intros [|j] H; [congruence|auto].
  - destruct (IH i s it' N E) as (ss' & E' & Le & N' & O). cbn. rewrite E'. cbn. eexists. split; [reflexivity|].
    cbn. split; [congruence|]. split; auto. intros [|j] H; auto. cbn. apply O. congruence.
Qed.

Lemma stands_at_step : forall R (rt : result_type R) alg h d q n k it it',
  stands_at rt alg h d q n k it -> stands_at rt alg h d q n (S k) it' ->
  runs_to (fun fuel => advance_query rt h alg q n fuel it) it'.
Proof.
  intros R rt alg h d q n k it it' [e1 H1] [e2 H2]. exists (Nat.max e1 e2). intros fuel Hf.
  specialize (H1 fuel ltac:(lia)). specialize (H2 fuel ltac:(lia)).
  unfold query_after in *. cbn [tr_alg new_transducer] in *.
  destruct (begin_query rt fuel h (new_transducer alg (d_root d)) q n) as [q0| |]; cbn [rbind] in *; try discriminate.
  clear - H1 H2. revert q0 H1 H2. induction k as [|k IH]; intros q0 H1 H2.
  - cbn in H1. injection H1 as <-. cbn [increments] in H2.
    destruct (advance_query rt h alg q n fuel q0); cbn in *; congruence.
  - cbn [increments] in H1. change (increments rt h alg q n fuel (S (S k)) q0) with
      (do q' <- advance_query rt h alg q n fuel q0; increments rt h alg q n fuel (S k) q') in H2.
    destruct (advance_query rt h alg q n fuel q0) as [q1| |]; cbn [rbind] in *; try discriminate. eauto.
Qed.

Theorem C34_independent : forall R (rt : result_type R) alg terms h d queries schedule,
  dictionary terms h d -> (forall q n, In (q, n) queries -> within_limits terms q n) ->
  (forall i, In i schedule -> i < length queries) ->
  exists sessions,
    runs_to (fun fuel => interleaved rt h (new_transducer alg (d_root d)) fuel queries schedule) sessions /\
    map fst sessions = queries /\
    forall i q n it, nth_error sessions i = Some (q, n, it) ->
      stands_at rt alg h d q n (count_occ Nat.eq_dec schedule i) it.
Proof.
  intros R rt alg terms h d queries schedule D L B. set (t := new_transducer alg (d_root d)).
  assert (Open : exists ss, runs_to (fun fuel => open_sessions rt h t fuel queries) ss /\ map fst ss = queries /\
    forall i q n it, nth_error ss i = Some (q, n, it) -> stands_at rt alg h d q n 0 it).
  { clear B. induction queries as [|[q n] queries IH].
    - exists []. split; [exists 0; auto|]. split; auto. intros [|i]; discriminate.
    - destruct IH as (ss & [e E] & M & S). { intros; apply L; right; auto. }
      destruct (query_after_main _ rt alg terms h d q n 0 D (L q n (or_introl eq_refl))) as (it & [e2 E2] & _).
      exists ((q, n, it) :: ss). split.
      + exists (Nat.max e e2). intros fuel Hf. cbn [open_sessions]. specialize (E2 fuel ltac:(lia)).
        unfold query_after in E2. fold t in E2. cbn [increments] in E2.
        destruct (begin_query rt fuel h t q n) as [q0| |]; cbn in E2; try discriminate. injection E2 as ->.
        cbn [rbind]. rewrite E by lia. auto.
      + split; [cbn; congruence|]. intros [|i] q' n' it' X; cbn in X; [|eauto].
        injection X as <- <- <-. exists e2. auto. }
  destruct Open as (ss0 & [e0 E0] & M0 & S0).
  assert (Run : forall schedule done ss, (forall i, In i schedule -> i < length queries) -> map fst ss = queries ->
    (forall i q n it, nth_error ss i = Some (q, n, it) -> stands_at rt alg h d q n (count_occ Nat.eq_dec done i) it) ->
    exists ss', runs_to (fun fuel => run_schedule rt h t fuel ss schedule) ss' /\ map fst ss' = queries /\
      forall i q n it, nth_error ss' i = Some (q, n, it) ->
        stands_at rt alg h d q n (count_occ Nat.eq_dec (done ++ schedule) i) it).
  { clear ss0 e0 E0 M0 S0 schedule B. induction schedule as [|i schedule IH]; intros done ss B M S.
    - exists ss. split; [exists 0; auto|]. split; auto. rewrite app_nil_r. auto.
    - assert (Li : i < length ss). { rewrite <- (map_length fst ss), M. apply B. left; auto. }
      destruct (nth_error ss i) as [[[q n] it]|] eqn:Ni; [|apply nth_error_None in Ni; lia].
      assert (Iq : In (q, n) queries).
      { rewrite <- M. change (q, n) with (fst ((q, n), it)). apply in_map. eapply nth_error_In; eauto. }
      pose proof (S _ _ _ _ Ni) as St.
      destruct (query_after_main _ rt alg terms h d q n (Datatypes.S (count_occ Nat.eq_dec done i)) D (L _ _ Iq)) as (it' & St' & _).
      destruct (stands_at_step _ _ _ _ _ _ _ _ _ _ St St') as [e E].
      destruct (bump_session_ok _ rt h t e ss i _ it' Ni (E e (le_n e))) as (ss1 & Eb & Le & N1 & O).
      unfold session in *.
      destruct (IH (done ++ [i]) ss1) as (ss2 & [e2 E2] & M2 & S2).
      + intros; apply B; right; auto.
      + rewrite <- M. apply nth_error_same. unfold session in *. intros j. rewrite !nth_error_map.
        destruct (Nat.eq_dec j i) as [->|Nj]; [rewrite N1, Ni; auto|rewrite O by auto; auto].
      + intros j q' n' it2 X. rewrite count_occ_app. cbn. destruct (Nat.eq_dec i j) as [<-|Nj].
        * rewrite N1 in X. injection X as <- <- <-. rewrite Nat.add_1_r. auto.
        * rewrite Nat.add_0_r. rewrite O in X by auto. eauto.
      + exists ss2. split.
        * exists (Nat.max e e2). intros fuel Hf. cbn [run_schedule].
          destruct (bump_session_ok _ rt h t fuel ss i _ it' Ni (E fuel ltac:(lia))) as (ss1' & Eb' & Le' & N1' & O').
          unfold session in *.
          assert (ss1' = ss1) as ->.
          { apply nth_error_same. intros j. destruct (Nat.eq_dec j i) as [->|Nj]; [congruence|].
            rewrite O, O' by auto. auto. }
          rewrite Eb'. cbn [rbind]. apply E2. lia.
        * split; auto. intros j q' n' it2 X. specialize (S2 _ _ _ _ X). rewrite <- app_assoc in S2. exact S2. }
  destruct (Run schedule [] ss0 B M0) as (ss & [e E] & M & S).
  { intros i q n it X. cbn. eauto. }
  exists ss. split; [|split; auto].
  exists (Nat.max e0 e). intros fuel Hf. unfold interleaved. rewrite E0 by lia. cbn [rbind]. apply E. lia.
Qed.
Print Assumptions C34_independent.

Example C34_case : match interleaved as_string example_heap (new_transducer STANDARD (d_root example_dawg)) 40
    [(cat, 2%N); (scb, 1%N)] [0; 1; 1; 0; 0; 1] with
  | Ok [(_, it1); (_, it2)] => Some ((q_candidate it1, q_complete it1), (q_candidate it2, q_complete it2))
  | _ => None
  end = Some ((scab, false), (scab, true)).
Proof. vm_compute. reflexivity. Qed.

(** Asking again gives the same answer. *)
Theorem C34_repeatable : forall R (rt : result_type R) alg terms h d q n, dictionary terms h d -> within_limits terms q n ->
  exists results, forall results', yields rt alg h d q n results' <-> results' = results.
Proof.
  intros R rt alg terms h d q n D L. eexists. intros r. split.
  - intros Y. eapply yields_det; eauto. apply query_all_main with (terms := terms); auto.
  - intros ->. apply query_all_main; auto.
Qed.
Print Assumptions C34_repeatable.

(** ** C35: distance 0 is exact lookup; results grow with the distance. *)
Theorem C35_exact_lookup : forall alg terms h d q results, dictionary terms h d -> within_limits terms q 0 ->
  yields as_candidate alg h d q 0 results ->
  (In q terms -> results = [(q, 0%N)]) /\ (~ In q terms -> results = []).
Proof.
  intros alg terms h d q results D L Y.
  pose proof (yields_det _ _ _ _ _ _ _ _ _ Y (candidates_main _ _ _ _ _ _ D L)) as ->.
  assert (F : forall w, In w (found alg terms q 0) <-> In w terms /\ q = w).
  { intros w. rewrite found_In. rewrite <- (dst_0 alg q w). intuition lia. }
  pose proof (StronglySorted_NoDup _ _ shortlex_irrefl (found_sorted alg terms q 0)) as ND.
  unfold scored. split; intros I.
  - assert (found alg terms q 0 = [q]) as ->.
    { assert (In q (found alg terms q 0)) as Iq by (apply F; auto).
      destruct (found alg terms q 0) as [|a [|b l]]; [destruct Iq| |].
      - f_equal. symmetry. apply F. left; auto.
      - exfalso. inversion ND as [|? ? N _]; subst. apply N. left.
        transitivity q; [symmetry|]; apply F; [right; left|left]; auto. }
    cbn [map]. rewrite dst_refl. auto.
  - destruct (found alg terms q 0) as [|a l]; auto. exfalso. apply I.
    destruct (proj1 (F a) (or_introl eq_refl)) as [X ->]. auto.
Qed.
Print Assumptions C35_exact_lookup.

Example C35_case_exact : query_all as_candidate 40 example_heap (new_transducer STANDARD (d_root example_dawg)) scab 0 =
    Ok [(scab, 0%N)] /\
  query_all as_candidate 40 example_heap (new_transducer STANDARD (d_root example_dawg)) cat 0 = Ok [].
Proof. run. vm_compute. reflexivity. Qed.

Theorem C35_monotone : forall alg terms h d q n n' results results', dictionary terms h d ->
  within_limits terms q n -> within_limits terms q n' -> (n <= n')%N ->
  yields as_candidate alg h d q n results -> yields as_candidate alg h d q n' results' ->
  forall c, In c results -> In c results'.
Proof.
  intros alg terms h d q n n' r r' D L L' Le Y Y' [w k].
  pose proof (yields_det _ _ _ _ _ _ _ _ _ Y (candidates_main _ _ _ _ _ _ D L)) as ->.
  pose proof (yields_det _ _ _ _ _ _ _ _ _ Y' (candidates_main _ _ _ _ _ _ D L')) as ->.
  rewrite !scored_In. intuition lia.
Qed.
Print Assumptions C35_monotone.

Theorem C35_everything : forall alg terms h d q n results, dictionary terms h d -> within_limits terms q n ->
  (N.of_nat (length q) <= n)%N -> (forall t, In t terms -> (N.of_nat (length t) <= n)%N) ->
  yields as_candidate alg h d q n results ->
  forall w, In w (map fst results) <-> In w terms.
Proof.
  intros alg terms h d q n r D L Lq Lt Y w.
  pose proof (yields_det _ _ _ _ _ _ _ _ _ Y (candidates_main _ _ _ _ _ _ D L)) as ->.
  rewrite scored_fst, found_In. split; [tauto|]. intros I. split; auto.
  pose proof (dst_max alg q w). specialize (Lt w I). lia.
Qed.
Print Assumptions C35_everything.

Example C35_case_all : (N.of_nat (length cat) <= 3)%N /\ (forall t, In t some_terms -> (N.of_nat (length t) <= 3)%N) /\
  query_all as_string 40 example_heap (new_transducer STANDARD (d_root example_dawg)) cat 3 = Ok [sa; sab; scb; scab].
Proof.
  split; [discriminate|]. split; [|vm_compute; reflexivity].
  intros t I. repeat (destruct I as [<-|I]; [discriminate|]). destruct I.
Qed.

(** ** C36: queries terminate, also for SIZE_MAX. *)
Theorem C36_terminates : forall R (rt : result_type R) alg terms h d q n,
  dictionary terms h d -> within_limits terms q n ->
  exists results, yields rt alg h d q n results /\ length results <= length terms.
Proof.
  intros R rt alg terms h d q n D L. eexists. split; [apply query_all_main with (terms := terms); auto|].
  rewrite map_length. unfold scored. rewrite map_length.
  apply NoDup_incl_length.
  - eapply StronglySorted_NoDup; eauto using shortlex_irrefl, found_sorted.
  - intros w I. apply found_In in I. tauto.
Qed.
Print Assumptions C36_terminates.

Example C36_case : exists results,
  yields as_string STANDARD example_heap example_dawg cat SIZE_MAX results /\ length results <= 4.
Proof. exact (C36_terminates _ as_string STANDARD _ _ _ _ _ example_dictionary (example_limits SIZE_MAX (N.le_refl _))). Qed.

(** ** C37: no undefined behaviour at any step of a query, for any distance that
    fits a size_t; that no value is spoilt by wrap-around is part of C28-C30. *)
Theorem C37_no_undefined_behaviour : forall R (rt : result_type R) alg terms h d q n k fuel,
  dictionary terms h d -> within_limits terms q n ->
  query_after rt fuel h (new_transducer alg (d_root d)) q n k <> UB.
Proof. intros. eapply query_after_no_ub_main; eauto. Qed.
Print Assumptions C37_no_undefined_behaviour.

Example C37_case : forall fuel k,
  query_after as_string fuel example_heap (new_transducer STANDARD (d_root example_dawg)) cat SIZE_MAX k <> UB.
Proof.
  intros. exact (C37_no_undefined_behaviour _ as_string STANDARD _ _ _ _ _ k fuel example_dictionary
    (example_limits SIZE_MAX (N.le_refl _))).
Qed.

(** ** C38: after [k] increments the iterator stands on the [k]-th result. *)
Theorem C38_lazy : forall R (rt : result_type R) alg terms h d q n results k c,
  dictionary terms h d -> within_limits terms q n -> yields rt alg h d q n results ->
  nth_error results k = Some c ->
  exists it, stands_at rt alg h d q n k it /\ query_eq it (end_query rt) = false /\ q_candidate it = c.
Proof.
  intros R rt alg terms h d q n results k c D L Y N.
  pose proof (yields_det _ _ _ _ _ _ _ _ _ Y (query_all_main _ rt alg terms h d q n D L)) as ->.
  destruct (query_after_main _ rt alg terms h d q n k D L) as (it & St & X). exists it. split; auto.
  rewrite nth_error_map in N. destruct (nth_error (scored alg terms q n) k); [|discriminate].
  injection N as <-. auto.
Qed.
Print Assumptions C38_lazy.

Example C38_case : exists it, stands_at as_candidate STANDARD example_heap example_dawg cat 2 2 it /\
  q_complete it = false /\ q_candidate it = (scb, 2%N).
Proof. exact (C38_lazy _ as_candidate _ _ _ _ _ _ _ 2 _ example_dictionary (example_limits 2 ltac:(discriminate)) example_yields eq_refl). Qed.

(** ** C39: an exhausted iterator stays at the end and keeps the last candidate
    (the default value if there was none). *)
Theorem C39_exhausted : forall R (rt : result_type R) alg terms h d q n results k,
  dictionary terms h d -> within_limits terms q n -> yields rt alg h d q n results ->
  length results <= k ->
  exists it, stands_at rt alg h d q n k it /\ query_eq it (end_query rt) = true /\
    q_candidate it = last results (r_default rt).
Proof.
  intros R rt alg terms h d q n results k D L Y Le.
  pose proof (yields_det _ _ _ _ _ _ _ _ _ Y (query_all_main _ rt alg terms h d q n D L)) as ->.
  destruct (query_after_main _ rt alg terms h d q n k D L) as (it & St & X). exists it. split; auto.
  rewrite map_length in Le. apply nth_error_None in Le. rewrite Le in X. auto.
Qed.
Print Assumptions C39_exhausted.

Example C39_case : exists it, stands_at as_candidate STANDARD example_heap example_dawg cat 2 7 it /\
  q_complete it = true /\ q_candidate it = (scab, 1%N).
Proof.
  refine (C39_exhausted _ as_candidate _ _ _ _ _ _ _ 7 example_dictionary (example_limits 2 ltac:(discriminate)) example_yields _).
  cbn. lia.
Qed.

(** So an iterator over no results at all shows the empty string, and for candidates
    the distance 0. *)
Theorem C39_no_results : forall alg terms h d q n k, dictionary terms h d -> within_limits terms q n ->
  (yields as_candidate alg h d q n [] -> exists it, stands_at as_candidate alg h d q n k it /\
     query_eq it (end_query as_candidate) = true /\ q_candidate it = ([], 0%N)) /\
  (yields as_string alg h d q n [] -> exists it, stands_at as_string alg h d q n k it /\
     query_eq it (end_query as_string) = true /\ q_candidate it = []).
Proof.
  intros alg terms h d q n k D L. split; intros Y; apply (C39_exhausted _ _ alg terms h d q n [] k D L Y); cbn; lia.
Qed.
Print Assumptions C39_no_results.

Example C39_case_no_results : yields as_candidate STANDARD example_heap example_dawg cat 0 [].
Proof. exact (candidates_main STANDARD _ _ _ _ _ example_dictionary (example_limits 0 ltac:(discriminate))). Qed.

(** ** C40: matching is symmetric. *)
Theorem C40_symmetric : forall alg terms h d q w n k results_q results_w, dictionary terms h d ->
  within_limits terms q n -> within_limits terms w n -> In q terms -> In w terms ->
  yields as_candidate alg h d q n results_q -> yields as_candidate alg h d w n results_w ->
  (In (w, k) results_q <-> In (q, k) results_w).
Proof.
  intros alg terms h d q w n k r1 r2 D L1 L2 Iq Iw Y1 Y2.
  pose proof (yields_det _ _ _ _ _ _ _ _ _ Y1 (candidates_main _ _ _ _ _ _ D L1)) as ->.
  pose proof (yields_det _ _ _ _ _ _ _ _ _ Y2 (candidates_main _ _ _ _ _ _ D L2)) as ->.
  rewrite !scored_In, !edit_distance_dst, (dst_sym alg w q). tauto.
Qed.
Print Assumptions C40_symmetric.

Example C40_case : In scab some_terms /\ In scb some_terms /\
  query_all as_candidate 40 example_heap (new_transducer TRANSPOSITION (d_root example_dawg)) scab 1 =
    Ok [(sab, 1%N); (scb, 1%N); (scab, 0%N)] /\
  query_all as_candidate 40 example_heap (new_transducer TRANSPOSITION (d_root example_dawg)) scb 1 =
    Ok [(sab, 1%N); (scb, 0%N); (scab, 1%N)].
Proof. split; [cbn; tauto|]. split; [cbn; tauto|]. run. vm_compute. reflexivity. Qed.

(** ** C70: comparing iterators.  An iterator equals anything, [end()] or not,
    exactly when it has no more results... *)
Theorem C70_comparison : forall R (rt : result_type R) alg terms h d q n results k other,
  dictionary terms h d -> within_limits terms q n -> yields rt alg h d q n results ->
  exists it, stands_at rt alg h d q n k it /\ (query_eq it other = true <-> length results <= k).
Proof.
  intros R rt alg terms h d q n results k other D L Y.
  destruct (Nat.le_gt_cases (length results) k) as [Le|Lt].
  - destruct (C39_exhausted _ rt alg _ _ _ _ _ _ k D L Y Le) as (it & St & E & _). exists it. split; [exact St|].
    split; [intros _; exact Le|intros _; exact E].
  - destruct (nth_error results k) as [c|] eqn:N; [|apply nth_error_None in N; lia].
    destruct (C38_lazy _ rt alg _ _ _ _ _ _ k c D L Y N) as (it & St & E & _). exists it. split; auto.
    unfold query_eq in *. rewrite E. split; [discriminate|lia].
Qed.
Print Assumptions C70_comparison.

(** ... but [end()] equals nothing, not even itself, so comparison is not
    symmetric and a loop that compares the other way round never ends. *)
Theorem C70_end_refuted : forall R (rt : result_type R) alg terms h d q n,
  dictionary terms h d -> within_limits terms q n ->
  query_eq (end_query rt) (end_query rt) = false /\
  (exists k it, stands_at rt alg h d q n k it /\
     query_eq it (end_query rt) = true /\ query_eq (end_query rt) it = false) /\
  forall rounds fuel, (do it <- begin_query rt fuel h (new_transducer alg (d_root d)) q n;
    collect_backwards rt h alg q n rounds fuel it) = OOF.
Proof.
  intros R rt alg terms h d q n D L. split; [reflexivity|]. split.
  - destruct (C36_terminates _ rt alg _ _ _ _ _ D L) as (results & Y & _).
    destruct (C39_exhausted _ rt alg _ _ _ _ _ _ (length results) D L Y (Nat.le_refl _)) as (it & St & E & _).
    exists (length results), it. split; [exact St|]. split; [exact E|reflexivity].
  - intros rounds fuel.
    assert (U : forall k, query_after rt fuel h (new_transducer alg (d_root d)) q n k <> UB)
      by (intros k; eapply C37_no_undefined_behaviour; eauto).
    unfold query_after in U.
    destruct (begin_query rt fuel h (new_transducer alg (d_root d)) q n) as [it| |] eqn:B;
      [|exfalso; exact (U 0 eq_refl)|reflexivity].
    clear B. cbn [rbind] in U |- *. revert it U. induction rounds as [|rounds IH]; intros it U; [reflexivity|].
    cbn [collect_backwards query_eq end_query q_complete].
    pose proof (U 1) as U1. cbn [increments new_transducer tr_alg] in U1.
    destruct (advance_query rt h alg q n fuel it) as [it'| |] eqn:A; [|exfalso; exact (U1 eq_refl)|reflexivity].
    cbn [rbind]. rewrite IH; [reflexivity|]. intros k Hk. apply (U (S k)). cbn [increments new_transducer tr_alg].
    rewrite A. exact Hk.
Qed.
Print Assumptions C70_end_refuted.

Example C70_case : exists it, stands_at as_candidate STANDARD example_heap example_dawg cat 2 7 it /\
  (query_eq it (end_query as_candidate) = true <-> 4 <= 7).
Proof.
  exact (C70_comparison _ as_candidate _ _ _ _ _ _ _ 7 _ example_dictionary (example_limits 2 ltac:(discriminate)) example_yields).
Qed.

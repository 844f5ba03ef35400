(** * C90: Beyond the limits of int.

    The theorems about contains() are for strings of at most INT_MAX characters
    and those about queries for [manageable] ones.  Here is what happens with
    all others. *)
From Verif Require Import Base Spec ModelTransducer ModelDawg ModelQuery SpecDawg SpecQuery
  TreeProofs HeapProofs QueryFacts TransProofs LimitProofs PropsDawg PropsQuery.
Local Open Scope nat_scope.

(** contains() of a longer string is undefined if a term begins with its first
    INT_MAX characters, and false otherwise. *)
Theorem C90_contains : forall terms h d front rest, dictionary terms h d ->
  N.of_nat (length front) = INT_MAX -> rest <> [] ->
  ((exists ending, In (front ++ ending) terms) -> contains h d (front ++ rest) = UB) /\
  (~ (exists ending, In (front ++ ending) terms) -> contains h d (front ++ rest) = Ok false).
Proof.
  intros terms h d front rest D L Nr. destruct (dictionary_unf _ _ _ D) as (U & _).
  rewrite (contains_look _ _ _ _ U).
  destruct (tlook_long front (trie terms) 0%N rest Nr L (trie_useful terms)) as (A & B). split.
  - intros (e & I). apply A. exists e. now apply tin_trie.
  - intros H. apply B; [intros ->; discriminate|]. intros (u & I). apply tin_trie in I. apply H. eauto.
Qed.
Print Assumptions C90_contains.

(** A query that is not [manageable] is undefined as soon as it has to read a
    label: at once, or after the empty term has been yielded, unless there is no
    other term. *)
Theorem C90_query : forall R (rt : result_type R) alg terms h d q n, dictionary terms h d ->
  (INT_MAX < N.of_nat (length q) <= SIZE_MAX)%N -> (n <= SIZE_MAX)%N -> (INT_MAX < 2 * n + 1)%N ->
  let t := new_transducer alg (d_root d) in
  let empty_term_found := In [] terms /\ (N.of_nat (length q) <= n)%N in
  ((exists c w, In (c :: w) terms) ->
    runs_into_ub (fun fuel => query_all rt fuel h t q n) /\
    (~ empty_term_found -> runs_into_ub (fun fuel => begin_query rt fuel h t q n)) /\
    (empty_term_found -> exists it, stands_at rt alg h d q n 0 it /\
       query_eq it (end_query rt) = false /\ q_candidate it = r_update rt [] (N.of_nat (length q)) /\
       runs_into_ub (fun fuel => advance_query rt h alg q n fuel it))) /\
  (~ (exists c w, In (c :: w) terms) ->
    (empty_term_found -> yields rt alg h d q n [r_update rt [] (N.of_nat (length q))]) /\
    (~ empty_term_found -> yields rt alg h d q n [])).
Proof.
  intros R rt alg terms h d q n D Lq Ln L2 t found. destruct (dictionary_unf _ _ _ D) as (U & _).
  destruct (unf_read _ _ _ U) as (nd & Rd & G & Sn & Un & Fn).
  assert (Fin : nfin nd = true <-> In [] terms).
  { rewrite <- Fn. exact (tin_trie terms []). }
  assert (Edge : (exists c w, In (c :: w) terms) <-> nedges nd <> []).
  { split.
    - intros (c & w & I) E. apply tin_trie in I. cbn [tin] in I. pose proof (unfs_get _ _ _ c Un) as X. rewrite E in X. cbn [edge_get] in X.
      rewrite X in I. discriminate.
    - intros H. pose proof (trie_useful terms) as Us. pose proof (tin_trie terms) as Tt. destruct (trie terms) as [f tes]. cbn [tedges] in Un.
      inversion Us as [f' es' Ne Us']; subst. inversion Un as [Eq|c p ty es ts U1 U2 Eq]; [congruence|subst].
      inversion Ne as [|? ? (w & W) _]; subst. cbn [snd] in W. exists c, w. apply Tt. cbn [tin tedges edge_get].
      rewrite (proj2 (ceqb_true c c) eq_refl). exact W. }
  set (q0 := fun c v => @Query R [RootI (d_root d) [Pos 0 0 false]] [] c None v 0 0).
  set (q1 := fun es v => @Query R [] es true (Some (RootI (d_root d) [Pos 0 0 false])) v (query_k (query_a n) (N.of_nat (length q)) 0) 0).
  assert (St : forall c v fuel, advance_query rt h alg q n (S fuel) (q0 c v) =
    match nedges nd with [] => Ok (q1 [] v) | es => advance_query_loop rt h alg q n fuel (q1 es v) end).
  { intros c v fuel. unfold q0, advance_query, set_complete. cbn [has_work q_edges q_pending q_current q_candidate q_k q_i advance_query_loop advance_step i_state i_node].
    rewrite Rd. cbn [rbind ti q_complete]. unfold has_work. cbn [q_edges q_pending]. destruct (nedges nd); reflexivity. }
  assert (Un1 : forall es v fuel, es <> [] -> advance_query_loop rt h alg q n (S fuel) (q1 es v) = UB).
  { intros es v fuel Ne. destruct es as [|[c p] es]; [congruence|]. cbn [advance_query_loop advance_step q1 q_edges q_current deref rbind q_k q_i].
    unfold q1. cbn [q_edges q_current deref rbind q_k q_i]. rewrite window_too_long by auto. reflexivity. }
  assert (Adv : nedges nd <> [] -> forall c v fuel, advance_query rt h alg q n (S (S fuel)) (q0 c v) = UB).
  { intros Ne c v fuel. rewrite St. destruct (nedges nd) eqn:E; [congruence|]. apply Un1. discriminate. }
  assert (Bg : forall fuel, begin_query rt fuel h t q n =
    if nfin nd && (N.of_nat (length q) <=? n)%N then Ok (q0 false (r_update rt [] (N.of_nat (length q)))) else advance_query rt h alg q n fuel (q0 false (r_default rt))).
  { intros fuel. unfold begin_query, new_query, t. cbn [new_transducer tr_alg tr_root i_node]. rewrite Rd. reflexivity. }
  assert (Fo : found <-> nfin nd && (N.of_nat (length q) <=? n)%N = true).
  { unfold found. rewrite Bool.andb_true_iff, Fin, N.leb_le. tauto. }
  assert (Co : forall rounds fuel v, nedges nd <> [] -> collect rt h alg q n (S rounds) (S (S fuel)) (q0 false v) = UB).
  { intros rounds fuel v Ne. cbn [collect]. unfold query_eq, q0 at 1. cbn [q_complete]. rewrite Adv by auto. reflexivity. }
  split.
  - intros Ex. apply Edge in Ex. split; [|split].
    + exists 2. intros [|[|fuel]] Hf; try lia. unfold query_all. rewrite Bg.
      destruct (nfin nd && (N.of_nat (length q) <=? n)%N); cbn [rbind]; [|rewrite Adv by auto; reflexivity].
      unfold t. cbn [new_transducer tr_alg]. apply Co; auto.
    + intros Nf. exists 2. intros [|[|fuel]] Hf; try lia. rewrite Bg.
      destruct (nfin nd && (N.of_nat (length q) <=? n)%N); [exfalso; apply Nf; now apply Fo|]. apply Adv; auto.
    + intros F. apply Fo in F. exists (q0 false (r_update rt [] (N.of_nat (length q)))). split; [|split; [|split]]; auto.
      * exists 0. intros fuel _. unfold query_after. fold t. rewrite Bg, F. reflexivity.
      * exists 2. intros [|[|fuel]] Hf; try lia. apply Adv; auto.
  - intros Ex. assert (En : nedges nd = []) by (destruct (nedges nd) eqn:E; auto; exfalso; apply Ex, Edge; discriminate).
    split; intros F.
    + exists 3. intros [|[|[|fuel]]] Hf; try lia. unfold query_all. fold t. rewrite Bg. apply Fo in F. rewrite F. cbn [rbind]. unfold t. cbn [new_transducer tr_alg].
      cbn [collect]. unfold query_eq, q0 at 1. cbn [q_complete]. rewrite St, En. cbn [rbind q1 q_complete]. reflexivity.
    + exists 3. intros [|[|[|fuel]]] Hf; try lia. unfold query_all. fold t. rewrite Bg.
      destruct (nfin nd && (N.of_nat (length q) <=? n)%N); [exfalso; apply F; now apply Fo|]. rewrite St, En. cbn [rbind]. unfold t. cbn [new_transducer tr_alg].
      reflexivity.
Qed.
Print Assumptions C90_query.

(** So a dictionary does not contain its own terms if they are too long: the
    lookup of any term of more than INT_MAX characters is undefined. *)
Theorem C90_own_term_refuted : forall terms h d w, dictionary terms h d ->
  In w terms -> (INT_MAX < N.of_nat (length w))%N -> contains h d w = UB.
Proof.
  intros terms h d w D I L. set (k := N.to_nat INT_MAX).
  assert (Lk : length (firstn k w) = k) by (rewrite firstn_length; unfold k; lia).
  destruct (C90_contains terms h d (firstn k w) (skipn k w) D) as (A & _).
  - rewrite Lk. unfold k. apply N2Nat.id.
  - intros E. pose proof (firstn_skipn k w) as F. rewrite E, app_nil_r in F. rewrite <- F, Lk in L. unfold k in L. rewrite N2Nat.id in L. lia.
  - rewrite firstn_skipn in A. apply A. exists (skipn k w). now rewrite firstn_skipn.
Qed.
Print Assumptions C90_own_term_refuted.

(** Such dictionaries exist. *)
Example C90_case_contains : exists h d, 
  let w := repeat "a"%char (N.to_nat 2147483648) in
  dictionary [w] h d /\ (INT_MAX < N.of_nat (length w))%N /\ contains h d w = UB.
Proof.
  set (w := repeat "a"%char (N.to_nat 2147483648)).
  assert (L : (INT_MAX < N.of_nat (length w))%N) by (unfold w; rewrite repeat_length, N2Nat.id; reflexivity).
  destruct (C12_sorted_dawg bump [] [w] bump_allocator) as (h & r & R & As & _).
  destruct r as [b|]; [|exfalso; apply (proj2 As); auto; repeat constructor].
  exists h, (b_dawg b). assert (D : dictionary [w] h (b_dawg b)) by exact (dictionary_sorted _ _ _ _ _ bump_allocator R).
  split; auto. split; auto. apply (C90_own_term_refuted [w]); auto. now left.
Qed.

(** A long query on the example dictionary: undefined for a large distance,
    answered for a small one. *)
Example C90_case_query : let q := repeat "a"%char (N.to_nat 2147483648) in
  runs_into_ub (fun fuel => query_all as_candidate fuel example_heap (new_transducer STANDARD (d_root example_dawg)) q 1073741824) /\
  within_limits some_terms q 1073741823 /\
  exists results, yields as_candidate STANDARD example_heap example_dawg q 1073741823 results.
Proof.
  intros q. assert (L : N.of_nat (length q) = 2147483648%N) by (unfold q; rewrite repeat_length, N2Nat.id; reflexivity).
  assert (W : within_limits some_terms q 1073741823).
  { split; [|apply example_limits; discriminate]. split; [rewrite L; reflexivity|right; vm_compute; discriminate]. }
  split; [|split; [exact W|]].
  - destruct (C90_query _ as_candidate STANDARD some_terms example_heap example_dawg q 1073741824 example_dictionary) as (A & _).
    + rewrite L. split; [reflexivity|vm_compute; discriminate].
    + vm_compute; discriminate.
    + reflexivity.
    + apply A. exists "a"%char, []. now left.
  - destruct (C36_terminates _ as_candidate STANDARD some_terms example_heap example_dawg q 1073741823 example_dictionary W) as (r & Y & _). eauto.
Qed.

(** * C91: Queries that are related.

    How the results of two queries are related that differ in the dictionary, in
    the distance, in the algorithm, or in the string asked for. *)
From Coq Require Import Sorting.Sorted.
From Verif Require Import Base Spec ModelTransducer ModelDawg ModelQuery SpecDawg SpecQuery SpecDistance SpecBounds
  AlignProofs DistFacts PropsDawg TreeProofs HeapProofs IterProofs DawgProofs QueryProofs QueryFacts PropsQuery PropsBounds.
Local Open Scope nat_scope.

Lemma sorted_same : forall (l1 l2 : list str), StronglySorted shortlex_lt l1 -> StronglySorted shortlex_lt l2 ->
  (forall w, In w l1 <-> In w l2) -> l1 = l2.
Proof.
  induction l1 as [|a l1 IH]; intros [|b l2] S1 S2 E; auto.
  - exfalso. apply (E b). now left.
  - exfalso. apply (E a). now left.
  - inversion S1 as [|? ? S1' F1]; subst. inversion S2 as [|? ? S2' F2]; subst. rewrite Forall_forall in *.
    assert (a = b) as <-.
    { destruct (proj1 (E a) (or_introl eq_refl)) as [<-|I]; auto. destruct (proj2 (E b) (or_introl eq_refl)) as [<-|I']; auto.
      exfalso. eapply shortlex_irrefl, shortlex_trans; eauto. }
    f_equal. apply IH; auto. intros w. split; intros I.
    + destruct (proj1 (E w) (or_intror I)) as [<-|I']; auto. exfalso. eapply shortlex_irrefl; eauto.
    + destruct (proj2 (E w) (or_intror I)) as [<-|I']; auto. exfalso. eapply shortlex_irrefl; eauto.
Qed.

Lemma filter_sorted : forall (f : str -> bool) l, StronglySorted shortlex_lt l -> StronglySorted shortlex_lt (filter f l).
Proof.
  intros f l H. induction H as [|a l S IH F]; cbn; [constructor|]. destruct (f a); auto. constructor; auto.
  rewrite Forall_forall in *. intros x I. apply filter_In in I. apply F, I.
Qed.

(** Fewer terms or a smaller distance: what is found is what the larger query
    finds among these terms and within this distance, in the same order and with
    the same distances.  So whether a term is found does not depend on the other
    terms, nor on how the dictionaries were made. *)
Theorem C91_fewer : forall alg few many h1 d1 h2 d2 q n n' results results',
  dictionary few h1 d1 -> dictionary many h2 d2 -> (forall t, In t few -> In t many) -> (n <= n')%N ->
  within_limits many q n' ->
  yields as_candidate alg h1 d1 q n results -> yields as_candidate alg h2 d2 q n' results' ->
  exists wanted, (forall c, wanted c = true <-> In (fst c) few /\ (snd c <= n)%N) /\
    results = filter wanted results'.
Proof.
  intros alg few many h1 d1 h2 d2 q n n' r r' D1 D2 Sub Le L Y Y'.
  assert (L1 : within_limits few q n).
  { destruct L as ((A & B) & C & D). split; [split; auto; destruct B; [now left|right; lia]|]. split; [lia|]. auto. }
  pose proof (yields_det _ _ _ _ _ _ _ _ _ Y (candidates_main _ _ _ _ _ _ D1 L1)) as ->.
  pose proof (yields_det _ _ _ _ _ _ _ _ _ Y' (candidates_main _ _ _ _ _ _ D2 L)) as ->.
  exists (fun c => (if in_dec (list_eq_dec Ascii.ascii_dec) (fst c) few then true else false) && (snd c <=? n)%N)%bool. split.
  - intros c. rewrite Bool.andb_true_iff, N.leb_le. destruct (in_dec _ _ _); intuition discriminate.
  - unfold scored. set (f := fun w => (w, N.of_nat (dst alg q w))).
    assert (C : forall (g : str * N -> bool) l, filter g (map f l) = map f (filter (fun w => g (f w)) l)).
    { intros g l. induction l as [|a l IH]; auto. cbn. destruct (g (f a)); cbn; rewrite IH; auto. }
    rewrite C. f_equal. apply sorted_same; [apply found_sorted|apply filter_sorted, found_sorted|].
    intros w. rewrite filter_In, !found_In, Bool.andb_true_iff, N.leb_le. unfold f. cbn [fst snd].
    destruct (in_dec _ w few) as [I|I]; [|intuition discriminate]. specialize (Sub _ I). intuition lia.
Qed.
Print Assumptions C91_fewer.

(** What STANDARD finds, the other algorithms find, with a distance that is not
    larger; what they find, STANDARD finds with twice the distance. *)
Theorem C91_algorithms : forall alg terms h d q n standard results twice,
  dictionary terms h d -> within_limits terms q (2 * n) ->
  yields as_candidate STANDARD h d q n standard -> yields as_candidate alg h d q n results ->
  yields as_candidate STANDARD h d q (2 * n) twice ->
  (forall w k, In (w, k) standard -> exists k', (k' <= k)%N /\ In (w, k') results) /\
  (forall w k, In (w, k) results -> exists k', (k <= k' <= 2 * k)%N /\ In (w, k') twice).
Proof.
  intros alg terms h d q n r1 r2 r3 D L Y1 Y2 Y3.
  assert (L1 : within_limits terms q n).
  { destruct L as ((A & B) & C & E). split; [split; auto; destruct B; [now left|right; lia]|]. split; [lia|]. auto. }
  pose proof (yields_det _ _ _ _ _ _ _ _ _ Y1 (candidates_main _ _ _ _ _ _ D L1)) as ->.
  pose proof (yields_det _ _ _ _ _ _ _ _ _ Y2 (candidates_main _ _ _ _ _ _ D L1)) as ->.
  pose proof (yields_det _ _ _ _ _ _ _ _ _ Y3 (candidates_main _ _ _ _ _ _ D L)) as ->.
  split; intros w k I; apply scored_In in I; destruct I as (I & E & Le); apply edit_distance_dst in E.
  - pose proof (dst_le_std alg q w). exists (N.of_nat (dst alg q w)). split; [lia|]. apply scored_In. split; auto.
    rewrite Nnat.Nat2N.id. split; [now apply edit_distance_dst|lia].
  - pose proof (dst_le_std alg q w). pose proof (dst_std_le alg q w). exists (N.of_nat (dst STANDARD q w)). split; [lia|]. apply scored_In. split; auto.
    rewrite Nnat.Nat2N.id. split; [now apply edit_distance_dst|lia].
Qed.
Print Assumptions C91_algorithms.

(** Asking for a result [v] of a query instead: whatever is found then is found by
    the query itself if it allows for the sum of the distances. *)
Theorem C91_detour : forall alg terms h d q v n m k results_q results_v results,
  alg <> TRANSPOSITION -> dictionary terms h d -> within_limits terms q (n + m) -> within_limits terms v m ->
  yields as_candidate alg h d q n results_q -> yields as_candidate alg h d v m results_v ->
  yields as_candidate alg h d q (n + m) results ->
  In (v, k) results_q -> forall w l, In (w, l) results_v ->
  exists j, (j <= k + l)%N /\ In (w, j) results.
Proof.
  intros alg terms h d q v n m k r1 r2 r3 Na D L L2 Y1 Y2 Y3 I w l J.
  assert (L1 : within_limits terms q n).
  { destruct L as ((A & B) & C & E). split; [split; auto; destruct B; [now left|right; lia]|]. split; [lia|]. auto. }
  pose proof (yields_det _ _ _ _ _ _ _ _ _ Y1 (candidates_main _ _ _ _ _ _ D L1)) as ->.
  pose proof (yields_det _ _ _ _ _ _ _ _ _ Y2 (candidates_main _ _ _ _ _ _ D L2)) as ->.
  pose proof (yields_det _ _ _ _ _ _ _ _ _ Y3 (candidates_main _ _ _ _ _ _ D L)) as ->.
  apply scored_In in I. destruct I as (_ & E1 & Le1). apply edit_distance_dst in E1.
  apply scored_In in J. destruct J as (J & E2 & Le2). apply edit_distance_dst in E2.
  pose proof (dst_triangle alg q v w Na). exists (N.of_nat (dst alg q w)). split; [lia|]. apply scored_In. split; auto.
  rewrite Nnat.Nat2N.id. split; [now apply edit_distance_dst|lia].
Qed.
Print Assumptions C91_detour.

(** Not so for TRANSPOSITION. *)
Definition detour_terms := [lit "abc"; lit "ac"].
Theorem C91_detour_refuted : exists h d results_q results_v results,
  dictionary detour_terms h d /\ within_limits detour_terms (lit "ca") 2 /\
  yields as_candidate TRANSPOSITION h d (lit "ca") 1 results_q /\ In (lit "ac", 1%N) results_q /\
  yields as_candidate TRANSPOSITION h d (lit "ac") 1 results_v /\ In (lit "abc", 1%N) results_v /\
  yields as_candidate TRANSPOSITION h d (lit "ca") 2 results /\ ~ In (lit "abc") (map fst results).
Proof.
  destruct (C12_sorted_dawg bump [] detour_terms bump_allocator) as (h & r & R & As & _).
  assert (Asc : ascending detour_terms) by (unfold detour_terms, ascending; ascending_tac).
  destruct r as [b|]; [|exfalso; now apply (proj2 As)].
  assert (D : dictionary detour_terms h (b_dawg b)) by exact (dictionary_sorted _ _ _ _ _ bump_allocator R).
  assert (Lt : forall t, In t detour_terms -> (N.of_nat (length t) < 2 ^ 62)%N).
  { change (2 ^ 62)%N with 4611686018427387904%N. intros t [<-|[<-|[]]]; reflexivity. }
  assert (L : forall q n, length q = 2 -> (n <= 2)%N -> within_limits detour_terms q n).
  { intros q n Lq Ln. split; [apply manageable_short; rewrite Lq; vm_compute; discriminate|]. split; auto.
    change SIZE_MAX with 18446744073709551615%N. lia. }
  exists h, (b_dawg b), [(lit "ac", 1%N)], [(lit "ac", 0%N); (lit "abc", 1%N)], [(lit "ac", 1%N)].
  split; [exact D|]. split; [apply L; [reflexivity|discriminate]|].
  pose proof (candidates_main TRANSPOSITION _ _ _ (lit "ca") 1 D (L (lit "ca") 1%N eq_refl ltac:(discriminate))) as Y1.
  pose proof (candidates_main TRANSPOSITION _ _ _ (lit "ac") 1 D (L (lit "ac") 1%N eq_refl ltac:(discriminate))) as Y2.
  pose proof (candidates_main TRANSPOSITION _ _ _ (lit "ca") 2 D (L (lit "ca") 2%N eq_refl ltac:(discriminate))) as Y3.
  split; [exact Y1|]. split; [now left|]. split; [exact Y2|]. split; [right; now left|]. split; [exact Y3|].
  intros [X|[]]. discriminate X.
Qed.
Print Assumptions C91_detour_refuted.

(** Prefixes that are longer than the string asked for by more than the distance
    are not extended: no query gets farther down in the dictionary than that,
    however long the terms are. *)
Theorem C91_depth : forall R (rt : result_type R) alg terms h d q n k log it,
  dictionary terms h d -> within_limits terms q n -> works rt alg h d q n k log it ->
  forall w, In w log -> (N.of_nat (length w) <= N.of_nat (length q) + n + 1)%N.
Proof.
  intros R rt alg terms h d q n k log it D L Wk w I.
  destruct (C65_work R rt alg terms h d q n k _ D L (candidates_main _ _ _ _ _ _ D L)) as (log' & it' & Wk' & _ & _ & H).
  pose proof (runs_to_det _ _ _ _ Wk Wk') as E. injection E as <- <-.
  apply H in I. destruct I as ((v & c & u & z & j & -> & _ & Ed & Le) & _). apply edit_distance_dst in Ed.
  pose proof (dst_len alg q (v ++ z)) as [_ X]. rewrite !app_length in *. cbn [length] in *. lia.
Qed.
Print Assumptions C91_depth.

Example C91_case : let ask alg q n := query_all as_candidate 40 example_heap (new_transducer alg (d_root example_dawg)) q n in
  ask STANDARD scb 1%N = Ok [(sab, 1%N); (scb, 0%N); (scab, 1%N)] /\
  ask STANDARD scb 2%N = Ok [(sa, 2%N); (sab, 1%N); (scb, 0%N); (scab, 1%N)] /\
  ask STANDARD (lit "bc") 1%N = Ok [] /\
  ask TRANSPOSITION (lit "bc") 1%N = Ok [(scb, 1%N)] /\
  ask STANDARD (lit "bc") 2%N = Ok [(sa, 2%N); (sab, 2%N); (scb, 2%N)].
Proof. vm_compute. repeat split. Qed.

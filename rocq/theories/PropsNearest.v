(** * C113: Looking for the nearest terms.

    What a user finds who asks with a larger and larger distance, and when a string
    with few errors leads back to the term that was meant. *)
From Coq Require Import Sorting.Sorted Sorting.Permutation.
From Verif Require Import Base Spec ModelTransducer ModelDawg ModelQuery SpecDawg SpecQuery SpecLimits SpecDistance
  AlignProofs DistFacts PropsDawg TreeProofs HeapProofs IterProofs DawgProofs QueryProofs QueryFacts PropsQuery PropsRelated.
Local Open Scope nat_scope.

(** [k] is the distance of the terms that are nearest to [q]. *)
Definition nearest (alg : algorithm) (terms : list str) (q : str) (k : nat) : Prop :=
  least (fun n => exists w, In w terms /\ edit_distance alg q w n) k.

Lemma nearest_exists : forall alg terms q, terms <> [] -> exists w, In w terms /\ forall t, In t terms -> dst alg q w <= dst alg q t.
Proof.
  intros alg terms q NE. induction terms as [|t terms IH]; [congruence|]. destruct terms as [|t2 terms].
  - exists t. split; [now left|]. intros x [<-|[]]. lia.
  - destruct IH as (w & I & M); [discriminate|]. destruct (Nat.le_gt_cases (dst alg q t) (dst alg q w)) as [L|L].
    + exists t. split; [now left|]. intros x [<-|J]; auto. specialize (M _ J). lia.
    + exists w. split; [now right|]. intros x [<-|J]; auto. lia.
Qed.

(** Asking with 0, 1, 2, ...: there is a first distance at which anything is found;
    what is found then are exactly the nearest terms.  A larger distance finds them
    too, and nothing nearer. *)
Theorem C113_nearest : forall alg terms h d q, dictionary terms h d -> terms <> [] ->
  (N.of_nat (length q) <= INT_MAX)%N -> (forall t, In t terms -> (N.of_nat (length t) < 2 ^ 62)%N) ->
  exists k, nearest alg terms q k /\ (forall t, In t terms -> k <= Nat.max (length q) (length t)) /\
    (forall n results, (n <= SIZE_MAX)%N -> yields as_candidate alg h d q n results ->
      (results = [] <-> (n < N.of_nat k)%N) /\
      (n = N.of_nat k -> forall w j, In (w, j) results <-> In w terms /\ j = n /\ edit_distance alg q w k) /\
      ((N.of_nat k <= n)%N -> (exists w, In (w, N.of_nat k) results) /\ forall w j, In (w, j) results -> (N.of_nat k <= j)%N)).
Proof.
  intros alg terms h d q D NE Lq Lt. destruct (nearest_exists alg terms q NE) as (w0 & I0 & M). exists (dst alg q w0). split; [|split].
  - split; [exists w0; split; auto; now apply edit_distance_dst|]. intros m (w & I & E). apply edit_distance_dst in E. subst m. auto.
  - intros t I. pose proof (M t I). pose proof (dst_max alg q t). lia.
  - intros n r Ln Y. assert (L : within_limits terms q n) by (split; [now apply manageable_short|]; split; auto).
    pose proof (yields_det _ _ _ _ _ _ _ _ _ Y (candidates_main _ _ _ _ _ _ D L)) as ->.
    assert (F : (N.of_nat (dst alg q w0) <= n)%N -> In (w0, N.of_nat (dst alg q w0)) (scored alg terms q n)).
    { intros Le. apply scored_In. rewrite Nnat.Nat2N.id, edit_distance_dst. auto. }
    split; [|split].
    + split.
      * intros E. destruct (N.lt_ge_cases n (N.of_nat (dst alg q w0))) as [H|H]; auto. apply F in H. rewrite E in H. destruct H.
      * intros H. destruct (scored alg terms q n) as [|(w & j) r] eqn:E; auto. exfalso.
        assert (I : In (w, j) (scored alg terms q n)) by (rewrite E; now left). apply scored_In in I. destruct I as (I & Ed & Le).
        apply edit_distance_dst in Ed. specialize (M _ I). lia.
    + intros -> w j. rewrite scored_In, !edit_distance_dst. split.
      * intros (I & E & Le). specialize (M _ I). split; auto. split; lia.
      * intros (I & -> & E). split; auto. split; lia.
    + intros H. split; [eauto|]. intros w j I. apply scored_In in I. destruct I as (I & Ed & Le). apply edit_distance_dst in Ed.
      specialize (M _ I). lia.
Qed.
Print Assumptions C113_nearest.

(** But the first that is found need not be the nearest. *)
Theorem C113_first_refuted : exists terms h d q n w j w' j' others, dictionary terms h d /\
  yields as_candidate STANDARD h d q n ((w, j) :: others) /\ In (w', j') others /\ (j' < j)%N.
Proof.
  exists some_terms, example_heap, example_dawg, cat, 2%N, sa, 2%N, scab, 1%N. eexists. split; [exact example_dictionary|].
  split; [exact example_yields|]. split; [right; right; now left|reflexivity].
Qed.
Print Assumptions C113_first_refuted.

Example C113_case : nearest STANDARD some_terms cat 1 /\
  query_all as_candidate 40 example_heap (new_transducer STANDARD (d_root example_dawg)) cat 0 = Ok [] /\
  query_all as_candidate 40 example_heap (new_transducer STANDARD (d_root example_dawg)) cat 1 = Ok [(scab, 1%N)].
Proof.
  split; [|split; vm_compute; reflexivity]. split.
  - exists scab. split; [cbn; auto|]. now apply edit_distance_dst.
  - intros m (w & I & E). apply edit_distance_dst in E. subst m. cbn in I.
    destruct I as [<-|[<-|[<-|[<-|[]]]]]; vm_compute; lia.
Qed.

(** A term with at most [e] errors is found, and nothing else is, if all other terms
    are more than twice as far from it. *)
Theorem C113_corrects : forall alg terms h d w x e, alg <> TRANSPOSITION -> dictionary terms h d -> In w terms ->
  within_limits terms x e -> (exists k, edit_distance alg w x k /\ (N.of_nat k <= e)%N) ->
  (forall t k, In t terms -> t <> w -> edit_distance alg w t k -> (2 * e < N.of_nat k)%N) ->
  exists k, yields as_candidate alg h d x e [(w, k)].
Proof.
  intros alg terms h d w x e Na D I L (k & Ed & Le) Far. apply edit_distance_dst in Ed. subst k.
  exists (N.of_nat (dst alg x w)). pose proof (candidates_main alg _ _ _ _ _ D L) as Y.
  assert (E : found alg terms x e = [w]).
  { apply sorted_same; [apply found_sorted|repeat constructor|]. intros t. rewrite found_In. cbn [In]. split.
    - intros (It & Lt). destruct (list_eq_dec ascii_dec t w) as [->|N]; auto. exfalso.
      pose proof (Far t (dst alg w t) It N ltac:(now apply edit_distance_dst)). pose proof (dst_triangle alg w x t Na). lia.
    - intros [<-|[]]. split; auto. rewrite dst_sym. exact Le. }
  unfold scored in Y. now rewrite E in Y.
Qed.
Print Assumptions C113_corrects.

Definition few_words : list str := [lit "a"; lit "wordy"].
Example C113_corrects_case : edit_distance STANDARD (lit "wordy") (lit "wrdx") 2 /\
  (forall t k, In t few_words -> t <> lit "wordy" -> edit_distance STANDARD (lit "wordy") t k -> (2 * 2 < N.of_nat k)%N) /\
  exists h b, runs_to (fun fuel => sorted_dawg fuel bump [] few_words) (h, Some b) /\ within_limits few_words (lit "wrdx") 2 /\
    yields as_candidate STANDARD h (b_dawg b) (lit "wrdx") 2 [(lit "wordy", 2%N)].
Proof.
  split; [apply edit_distance_dst; vm_compute; reflexivity|]. split.
  - intros t k [<-|[<-|[]]] N E; [|congruence]. apply edit_distance_dst in E. vm_compute in E. subst k. reflexivity.
  - destruct (C12_sorted_dawg bump [] few_words bump_allocator) as (h & r & R & As & _).
    assert (Asc : ascending few_words) by (unfold few_words, ascending; ascending_tac).
    destruct r as [b|]; [|exfalso; now apply As]. pose proof (dictionary_sorted _ _ _ _ _ bump_allocator R) as D.
    assert (L : within_limits few_words (lit "wrdx") 2).
    { split; [apply manageable_short; vm_compute; discriminate|]. split; [vm_compute; discriminate|].
      intros t I. repeat (destruct I as [<-|I]; [reflexivity|]). destruct I. }
    exists h, b. split; [exact R|]. split; [exact L|]. exact (candidates_main STANDARD _ _ _ _ _ D L).
Qed.

(** With transpositions other terms may come along: ca is meant, ac is written, and
    abc is found as well, although it is 3 away from ca. *)
Theorem C113_corrects_refuted : exists terms h d w x results, dictionary terms h d /\ In w terms /\ within_limits terms x 1 /\
  edit_distance TRANSPOSITION w x 1 /\ (forall t k, In t terms -> t <> w -> edit_distance TRANSPOSITION w t k -> (2 * 1 < N.of_nat k)%N) /\
  yields as_candidate TRANSPOSITION h d x 1 results /\ exists t k, t <> w /\ In (t, k) results.
Proof.
  destruct (C12_sorted_dawg bump [] [lit "abc"; lit "ca"] bump_allocator) as (h & r & R & As & _).
  assert (Asc : ascending [lit "abc"; lit "ca"]) by (unfold ascending; ascending_tac).
  destruct r as [b|]; [|exfalso; now apply As]. pose proof (dictionary_sorted _ _ _ _ _ bump_allocator R) as D.
  assert (L : within_limits [lit "abc"; lit "ca"] (lit "ac") 1).
  { split; [apply manageable_short; vm_compute; discriminate|]. split; [vm_compute; discriminate|].
    intros t I. repeat (destruct I as [<-|I]; [reflexivity|]). destruct I. }
  exists [lit "abc"; lit "ca"], h, (b_dawg b), (lit "ca"), (lit "ac"). eexists. split; [exact D|]. split; [right; now left|]. split; auto.
  split; [now apply edit_distance_dst|]. split; [|split; [exact (candidates_main _ _ _ _ _ _ D L)|]].
  - intros t k [<-|[<-|[]]] N E; [|congruence]. apply edit_distance_dst in E. subst k. reflexivity.
  - exists (lit "abc"), 1%N. split; [discriminate|]. apply scored_In. split; [now left|]. split; [now apply edit_distance_dst|lia].
Qed.
Print Assumptions C113_corrects_refuted.

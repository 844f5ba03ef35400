(** * C95: how large dictionaries and their files are. *)
From Coq Require Import Sorting.Sorted Sorting.Permutation.
From Verif Require Import Base Spec ModelTransducer ModelDawg ModelSerial ModelWire SpecDawg SpecQuery SpecCost SpecUseCost TreeProofs HeapProofs BuildProofs
  BuildProofs2 DawgProofs SerialProofs QueryFacts BuildCostProofs UseCostProofs SavedProofs PropsDawg PropsSerial PropsBuildHold.
Local Open Scope nat_scope.

(** ** Every dictionary is minimal, whether sorted_dawg made it, or add and finish(),
    or it was restored (C16 says this of sorted_dawg). *)
Theorem C95_minimal : forall terms h d p q, dictionary terms h d ->
  reach h (d_root d) p -> reach h (d_root d) q -> (forall w, accepts_from h p w <-> accepts_from h q w) -> p = q.
Proof.
  intros ts h d p q D Rp Rq E. destruct (dictionary_unf _ _ _ D) as (U & _ & _). pose proof Rp as [u Pu]. pose proof Rq as [v Pv].
  destruct (path_useful' _ _ _ _ _ Pu U (trie_useful ts)) as (tp & Up & Usp).
  destruct (path_useful' _ _ _ _ _ Pv U (trie_useful ts)) as (tq & Uq & Usq).
  assert (tp = tq).
  { apply tree_ext; eauto using unf_tsorted. apply tin_bool_ext. intros w.
    rewrite <- (accepts_tin _ _ _ w Up), <- (accepts_tin _ _ _ w Uq). apply E. }
  subst. eapply dictionary_minimal; eauto.
Qed.
Print Assumptions C95_minimal.

Lemma some_representatives terms : ascending terms -> exists reps, representatives terms reps.
Proof.
  intros As. destruct (c_finished_ok bump [] terms bump_allocator) as (flags & kept & h' & b' & calls & G & _ & _ & _ & Rs & ND & HR & _).
  destruct (greedy_det _ _ _ _ G _ _ (greedy_sorted [] terms ltac:(apply ascending_nil_cons; exact As))) as [_ ->].
  exact (representatives_exist terms Rs ND HR).
Qed.

(** ** The message that is saved: with one prefix for every set of endings that the
    prefixes of the terms have, and the empty one for the root, there is one node
    for each, those that are terms are final, and there are as many edges as
    characters that can follow them.  In a file a node takes at most 10 bytes, and
    10 more if it is final, and an edge at most 30. *)
Theorem C95_saved : forall terms h d, dictionary terms h d ->
  exists m, runs_to (fun fuel => to_protobuf fuel h d) m /\
    (exists reps, representatives terms reps) /\
    forall reps, representatives terms reps ->
      length (m_nodes m) = length ([] :: reps) /\
      (exists finals, NoDup finals /\ (forall r, In r finals <-> In r ([] :: reps) /\ In r terms) /\ length (m_finals m) = length finals) /\
      (exists counts, Forall2 (can_follow terms) ([] :: reps) counts /\ length (m_edges m) = list_sum counts) /\
      length (encode m) <= 10 * length (m_nodes m) + 10 * length (m_finals m) + 30 * length (m_edges m) + 44.
Proof.
  intros ts h d D. destruct (dictionary_unf _ _ _ D) as (U & As & _). destruct (to_protobuf_all h d _ U) as (m & R & De).
  exists m. split; [exact R|]. split; [exact (some_representatives ts As)|]. intros reps Rp.
  destruct (saved_counts ts h d reps m D Rp De) as (N & F & E). split; [exact N|]. split; [exact F|]. split; [exact E|].
  apply encode_length. intros e J. apply (ds_edges _ _ _ De) in J. destruct J as (x & c & q & -> & _). apply C26_labels.
Qed.
Print Assumptions C95_saved.

(** {a, ab, cab, cb}: the endings after "", "a", "ab", "c" and "ca" are different
    (C83_exact_case); of these "a" and "ab" are terms, and 2, 1, 0, 2 and 1
    characters can follow. *)
Example C95_case : exists h b m, sorted_dawg 30 bump [] some_terms = Ok (h, Some b) /\ to_protobuf 30 h (b_dawg b) = Ok m /\
  length (m_nodes m) = 5 /\ length (m_finals m) = 2 /\ length (m_edges m) = 6 /\ length (encode m) = 63.
Proof. eexists _, _, _. run. run. vm_compute. repeat split. Qed.

(** All strings of length [n] over two letters. *)
Theorem C95_binary : forall n h d, dictionary (binary n) h d ->
  exists m, runs_to (fun fuel => to_protobuf fuel h d) m /\
    length (m_nodes m) = n + 1 /\ length (m_finals m) = 1 /\ length (m_edges m) = 2 * n /\ length (encode m) <= 70 * n + 64.
Proof.
  intros n h d D. destruct (C95_saved _ _ _ D) as (m & R & _ & H). exists m. split; [exact R|].
  destruct (H _ (binary_representatives n)) as (N & (fs & Nf & Hf & Lf) & (cs & Fc & Ec) & Le).
  set (a := ascii_of_nat 97) in *. set (b := ascii_of_nat 98) in *.
  assert (Fa : forall k, Forall ab (repeat a k)).
  { intros k. apply Forall_forall. intros x J. apply repeat_spec in J. left. exact J. }
  assert (Reps : [] :: map (repeat a) (seq 1 n) = map (repeat a) (seq 0 (S n))) by reflexivity.
  assert (N' : length (m_nodes m) = n + 1) by (rewrite N, Reps, map_length, seq_length; lia).
  assert (F' : length (m_finals m) = 1).
  { rewrite Lf. change 1 with (length [repeat a n]). apply Permutation_length, NoDup_Permutation; [exact Nf|repeat constructor; cbn; tauto|].
    intros r. rewrite Hf, Reps, in_map_iff, in_binary. cbn [In]. split.
    - intros [(k & <- & _) [L _]]. left. rewrite repeat_length in L. now subst.
    - intros [<-|[]]. split; [exists n; split; [reflexivity|apply in_seq; lia]|]. split; [apply repeat_length|apply Fa]. }
  assert (E' : length (m_edges m) = 2 * n).
  { rewrite Ec. rewrite Reps in Fc.
    assert (X : forall k c, can_follow (binary n) (repeat a k) c -> c = if k <? n then 2 else 0).
    { intros k c (l & Nl & Hl & <-). destruct (Nat.ltb_spec k n) as [Hk|Hk].
      - change 2 with (length [a; b]). apply Permutation_length, NoDup_Permutation; [exact Nl| |].
        { repeat constructor; cbn; [|tauto]. intros [X|[]]. discriminate X. }
        intros x. rewrite Hl. split.
        + intros (u & J). apply in_binary in J. destruct J as [_ J]. apply Forall_app in J. destruct J as [_ J]. inversion J as [|? ? A _]; subst.
          cbn. destruct A as [->| ->]; auto.
        + intros J. exists (repeat a (n - S k)). apply in_binary. split.
          * rewrite app_length. cbn [length]. rewrite !repeat_length. lia.
          * apply Forall_app. split; [apply Fa|]. constructor; [|apply Fa]. destruct J as [<-|[<-|[]]]; [now left|now right].
      - destruct l as [|x l]; [reflexivity|]. exfalso. destruct (proj1 (Hl x) (or_introl eq_refl)) as (u & J). apply in_binary in J.
        destruct J as [L _]. rewrite app_length, repeat_length in L. cbn in L. lia. }
    assert (Y : forall k s cs, Forall2 (can_follow (binary n)) (map (repeat a) (seq s k)) cs -> s + k = S n -> list_sum cs = 2 * (n - s)).
    { clear -X. induction k as [|k IH]; intros s cs F L; inversion F as [|? c ? cs' Fc F']; subst; [cbn; lia|].
      cbn [list_sum fold_right]. unfold list_sum in IH. rewrite (IH _ _ F') by lia. apply X in Fc. subst c. destruct (Nat.ltb_spec s n); lia. }
    rewrite (Y _ _ _ Fc ltac:(lia)). lia. }
  repeat (split; [assumption|]). lia.
Qed.
Print Assumptions C95_binary.

(** * C94: what comparing and saving dictionaries costs. *)
From Coq Require Import Sorting.Sorted Sorting.Permutation.
From Verif Require Import Base Spec ModelTransducer ModelDawg ModelSerial ModelUseCost SpecDawg SpecQuery SpecCost SpecUseCost TreeProofs
  HeapProofs BuildProofs BuildProofs2 DawgProofs SerialProofs DestroyProofs QueryFacts PropsDawg PropsQuery PropsBuildHold UseCostProofs.
Local Open Scope nat_scope.

(** ** Which nodes == compares: if the sizes are equal, the two nodes that each
    common prefix leads to, once for every prefix, depth first, up to where the
    first difference is noticed. *)
Theorem C94_compare : forall terms1 terms2 h d1 d2, dictionary terms1 h d1 -> dictionary terms2 h d2 ->
  exists answer calls,
    runs_to (fun fuel => dawg_eq fuel h d1 d2) answer /\
    runs_to (fun fuel => c_dawg_eq fuel h d1 d2) (answer, calls) /\
    NoDup calls /\
    forall w, In w calls <-> d_size d1 = d_size d2 /\ is_prefix terms1 w /\ is_prefix terms2 w /\
      forall v, noticed terms1 terms2 v -> ~ slex_lt v w.
Proof.
  intros ts1 ts2 h d1 d2 D1 D2. destruct (dictionary_unf _ _ _ D1) as (U1 & _). destruct (dictionary_unf _ _ _ D2) as (U2 & _).
  destruct (unf_read _ _ _ U1) as (n1 & R1 & _ & N1). destruct (unf_read _ _ _ U2) as (n2 & R2 & _ & N2).
  destruct (N.eqb_spec (d_size d1) (d_size d2)) as [S|S].
  - pose proof (tlog_right (trie ts1) (trie ts2) (trie_sorted _) (trie_sorted _)) as X.
    destruct (tlog (trie ts1) (trie ts2)) as [r l] eqn:E. cbn [fst snd] in X. destruct X as (Nd & _ & Hw). exists r, l.
    assert (C : forall fuel, height (trie ts1) <= fuel -> c_dawg_eq fuel h d1 d2 = Ok (r, l)).
    { intros fuel Hf. unfold c_dawg_eq. rewrite S, N.eqb_refl. cbn [negb]. rewrite R1, R2. cbn [rbind]. rewrite <- E. now apply c_node_eq_ok. }
    split; [|split; [|split]].
    + exists (height (trie ts1)). intros fuel Hf. specialize (C fuel Hf). unfold c_dawg_eq, dawg_eq in *. destruct (negb _); [congruence|].
      rewrite R1, R2 in *. cbn [rbind] in *. rewrite c_node_eq_fst, C. reflexivity.
    + exists (height (trie ts1)). exact C.
    + exact Nd.
    + intros w. rewrite Hw, !has_prefix. split; [intros (A & B & N)|intros (_ & A & B & N)]; repeat (split; [assumption|]); intros v V;
        apply N, differs_noticed, V.
  - exists false, []. apply N.eqb_neq in S. split; [exists 0; intros; unfold dawg_eq; now rewrite S|].
    split; [exists 0; intros; unfold c_dawg_eq; now rewrite S|]. split; [constructor|]. apply N.eqb_neq in S. intros w. split; [intros []|tauto].
Qed.
Print Assumptions C94_compare.

(** Dictionaries with the same terms: every prefix is compared, however few nodes
    there are. *)
Theorem C94_same : forall terms h d1 d2 prefixes, dictionary terms h d1 -> dictionary terms h d2 -> lists_prefixes terms prefixes ->
  exists calls, runs_to (fun fuel => c_dawg_eq fuel h d1 d2) (true, calls) /\ Permutation calls prefixes.
Proof.
  intros ts h d1 d2 ps D1 D2 P. destruct (C94_compare _ _ _ _ _ D1 D2) as (a & calls & R & C & Nd & Hw).
  destruct (dictionary_unf _ _ _ D1) as (U1 & _ & S1). destruct (dictionary_unf _ _ _ D2) as (U2 & _ & S2).
  destruct (dawg_eq_ok _ _ _ _ _ U1 U2) as (r & R' & I). assert (a = true) as ->.
  { rewrite (runs_to_det _ _ _ _ R R'). apply I. split; [congruence|reflexivity]. }
  exists calls. split; [exact C|].
  destruct P as [Np Hp]. apply NoDup_Permutation; auto. intros w. rewrite Hw, Hp. split; [tauto|]. intros J. split; [congruence|].
  split; [exact J|]. split; [exact J|]. intros v (Pv & [X|[X|(n1 & n2 & F1 & F2 & X)]]); exfalso; [tauto|tauto|].
  apply follow_sub in F1. apply follow_sub in F2. congruence.
Qed.
Print Assumptions C94_same.

(** ** Saving visits every edge once: as many calls of each of the two recursive
    functions as the message has edges, and one. *)
Theorem C94_save : forall terms h d, dictionary terms h d ->
  exists m, runs_to (fun fuel => to_protobuf fuel h d) m /\
    runs_to (fun fuel => c_to_protobuf fuel h d) (m, length (m_edges m) + 1, length (m_edges m) + 1).
Proof.
  intros ts h d D. destruct (dictionary_unf _ _ _ D) as (U & _). destruct (to_protobuf_all h d _ U) as (m & R & _).
  exists m. split; [exact R|]. rewrite Nat.add_1_r. eapply c_to_protobuf_ok; eauto.
Qed.
Print Assumptions C94_save.

(** {a, ab, cab, cb} and {a, ab, cb, cbc}: two characters can follow "c" in the
    former and one in the latter; there the comparison ends. *)
Example C94_case : exists h1 b1 h2 b2,
  sorted_dawg 30 bump [] some_terms = Ok (h1, Some b1) /\
  sorted_dawg 30 bump h1 [lit "a"; lit "ab"; lit "cb"; lit "cbc"] = Ok (h2, Some b2) /\
  c_dawg_eq 30 h2 (b_dawg b1) (b_dawg b2) = Ok (false, [[]; lit "a"; lit "ab"; lit "c"]) /\
  (exists l, c_dawg_eq 30 h2 (b_dawg b1) (b_dawg b1) = Ok (true, l) /\ length l = 7) /\
  exists m, c_to_protobuf 30 h2 (b_dawg b1) = Ok (m, 7, 7).
Proof. eexists _, _, _, _. run. run. split; [vm_compute; reflexivity|]. split; eexists; [run; vm_compute; reflexivity|vm_compute; reflexivity]. Qed.

(** All strings of length three over two letters: 15 prefixes, 4 nodes, 6 edges. *)
Example C94_far_apart_case : exists h b,
  sorted_dawg 30 bump [] (binary 3) = Ok (h, Some b) /\
  (exists l, c_dawg_eq 30 h (b_dawg b) (b_dawg b) = Ok (true, l) /\ length l = 15) /\
  exists m, c_to_protobuf 30 h (b_dawg b) = Ok (m, 7, 7).
Proof. eexists _, _. run. split; eexists; [run; vm_compute; reflexivity|vm_compute; reflexivity]. Qed.

(** * QueryFacts: queries on dictionaries built by sorted_dawg. *)
From Coq Require Import Sorting.Sorted Sorting.Permutation.
From Verif Require Import Base Spec ModelTransducer ModelDawg ModelQuery SpecDawg SpecQuery AlignProofs
  TransProofs StateProofs TreeProofs HeapProofs BuildProofs IterProofs DawgProofs ModelSerial SerialProofs QueryProofs.
Local Open Scope nat_scope.

Lemma dictionary_unf : forall terms h d, dictionary terms h d ->
  unf h (d_root d) (trie terms) /\ ascending terms /\ d_size d = (N.of_nat (length terms) mod W)%N.
Proof.
  intros terms h d D. induction D as [alloc h0 h b A R|alloc h0 offered flags h b A R Gr|alloc h d m h1 h2 b D IH Rm A E|h d h' D IH E].
  - apply sorted_dawg_built in R; auto. destruct R as (As & Bu & _).
    split; [|split; [auto | apply Bu]]. apply Bu.
  - destruct (finished_ok alloc h0 offered A) as (B & flags' & kept & h' & b' & w & Gr' & E & I & Un & Wk & S).
    assert (X : (flags, h, b) = (flags', h', b')).
    { eapply runs_to_det; eauto. exists B. auto. }
    injection X as <- <- <-. destruct (greedy_det _ _ _ _ Gr _ _ Gr') as [_ <-].
    split; [|split; auto].
    + pose proof (iv_top _ _ _ _ _ _ _ I) as U. rewrite Un in U. exact U.
    + apply ascending_nil_cons. eapply greedy_kept_sorted; eauto.
  - destruct IH as (U & As & S).
    pose proof (written h d m _ U Rm) as De.
    destruct (restored_copy alloc h d _ m h1 A U De) as (f & h2' & E' & C).
    rewrite E' in E. injection E as <- <-. cbn. split; auto.
    eapply copy_unf; eauto using reach_refl.
  - destruct IH as (U & As & S). split; auto. eapply unf_frame with (P := reach h (d_root d)); eauto using reach_closed, reach_refl.
Qed.

Lemma trie_height : forall terms B, (forall t, In t terms -> length t <= B) -> height (trie terms) <= S B.
Proof.
  intros terms B. unfold trie, trie_from.
  assert (forall l t, height t <= S B -> (forall w, In w l -> length w <= B) -> height (fold_left tadd l t) <= S B) as G.
  { induction l as [|w l IH]; intros t Ht H; cbn; auto. apply IH.
    - apply height_tadd; auto. specialize (H w (or_introl eq_refl)). lia.
    - intros; apply H; right; auto. }
  intros H. apply G; auto. cbn. lia.
Qed.

Lemma longest : forall (terms : list str) (P : nat -> Prop), P 0 -> (forall t, In t terms -> P (length t)) ->
  exists B, P B /\ forall t, In t terms -> length t <= B.
Proof.
  induction terms as [|t terms IH]; intros P P0 H.
  - exists 0. split; auto. intros ? [].
  - destruct (IH P P0 ltac:(intros; apply H; right; auto)) as (B & PB & HB).
    destruct (Nat.le_ge_cases B (length t)).
    + exists (length t). split; [apply H; left; auto|]. intros u [<-|I]; auto. specialize (HB u I). lia.
    + exists B. split; auto. intros u [<-|I]; auto.
Qed.

(** The terms within the distance, in iteration order. *)
Definition found (alg : algorithm) (terms : list str) (q : str) (n : N) : list str :=
  filter (fun w => (N.of_nat (dst alg q w) <=? n)%N) (words (trie terms)).

Definition scored (alg : algorithm) (terms : list str) (q : str) (n : N) : list (str * N) :=
  map (fun w => (w, N.of_nat (dst alg q w))) (found alg terms q n).

Definition render {R : Type} (rt : result_type R) (c : str * N) : R := r_update rt (fst c) (snd c).

Lemma render_scored : forall R (rt : result_type R) alg terms q n,
  map (render rt) (scored alg terms q n) = map (fun w => r_update rt w (N.of_nat (dst alg q w))) (found alg terms q n).
Proof. intros. unfold scored. rewrite map_map. reflexivity. Qed.

Lemma found_In : forall alg terms q n w, In w (found alg terms q n) <-> In w terms /\ (N.of_nat (dst alg q w) <= n)%N.
Proof.
  intros. unfold found. rewrite filter_In, words_In by apply trie_sorted. rewrite tin_trie, N.leb_le. tauto.
Qed.

Lemma found_sorted : forall alg terms q n, StronglySorted shortlex_lt (found alg terms q n).
Proof.
  intros. unfold found. generalize (words_sorted _ (trie_sorted terms)). generalize (words (trie terms)).
  intros l H. induction H as [|a l S IH F]; cbn; [constructor|].
  destruct (_ <=? n)%N; auto. constructor; auto. rewrite Forall_forall in *. intros x I. apply filter_In in I. apply F, I.
Qed.

Lemma scored_In : forall alg terms q n w d, In (w, d) (scored alg terms q n) <->
  In w terms /\ edit_distance alg q w (N.to_nat d) /\ (d <= n)%N.
Proof.
  intros. unfold scored. rewrite in_map_iff. rewrite edit_distance_dst. split.
  - intros (w' & E & I). injection E as <- <-. apply found_In in I. rewrite Nnat.Nat2N.id. tauto.
  - intros (I & E & L). exists w. rewrite <- E, Nnat.N2Nat.id. split; auto. apply found_In. split; auto. lia.
Qed.

Lemma scored_fst : forall alg terms q n, map fst (scored alg terms q n) = found alg terms q n.
Proof. intros. unfold scored. rewrite map_map. cbn. apply map_id. Qed.

Lemma query_all_unf : forall R (rt : result_type R) alg terms h d q n, unf h (d_root d) (trie terms) -> within_limits terms q n ->
  yields rt alg h d q n (map (render rt) (scored alg terms q n)).
Proof.
  intros R rt alg terms h d q n U (Lq & Ln & Lt).
  destruct (longest terms small_depth) as (B & SB & HB). { unfold small_depth; lia. } { exact Lt. }
  destruct (query_all_ok rt h alg q n B Lq Ln SB (d_root d) (trie terms) U (trie_height _ _ HB)) as (M & E).
  exists (S M). intros fuel Hf. rewrite render_scored. apply E. lia.
Qed.

(** How much fuel suffices. *)
Lemma query_all_fuel : forall R (rt : result_type R) alg terms h d q n fuel, unf h (d_root d) (trie terms) ->
  within_limits terms q n -> 2 * tsize (trie terms) + length (found alg terms q n) + 2 <= fuel ->
  query_all rt fuel h (new_transducer alg (d_root d)) q n = Ok (map (render rt) (scored alg terms q n)).
Proof.
  intros R rt alg terms h d q n fuel U (Lq & Ln & Lt) Hf.
  destruct (longest terms small_depth) as (B & SB & HB). { unfold small_depth; lia. } { exact Lt. }
  rewrite render_scored.
  apply (query_all_in rt h alg q n B Lq Ln SB (d_root d) (trie terms) U (trie_height _ _ HB)).
  change (matches alg q n (trie terms)) with (found alg terms q n).
  pose proof (tsize_pos (trie terms)). unfold steps. cbn [fold_right snd]. lia.
Qed.

Lemma query_all_main : forall R (rt : result_type R) alg terms h d q n, dictionary terms h d -> within_limits terms q n ->
  yields rt alg h d q n (map (render rt) (scored alg terms q n)).
Proof. intros R rt alg terms h d q n D L. destruct (dictionary_unf _ _ _ D) as (U & _). apply query_all_unf; auto. Qed.

Lemma query_after_main : forall R (rt : result_type R) alg terms h d q n k, dictionary terms h d -> within_limits terms q n ->
  exists it, stands_at rt alg h d q n k it /\
    match nth_error (scored alg terms q n) k with
    | Some c => q_complete it = false /\ q_candidate it = render rt c
    | None => q_complete it = true /\ q_candidate it = last (map (render rt) (scored alg terms q n)) (r_default rt)
    end.
Proof.
  intros R rt alg terms h d q n k D (Lq & Ln & Lt). destruct (dictionary_unf _ _ _ D) as (U & _).
  destruct (longest terms small_depth) as (B & SB & HB). { unfold small_depth; lia. } { exact Lt. }
  destruct (query_after_ok rt h alg q n B Lq Ln SB (d_root d) (trie terms) U (trie_height _ _ HB)) as (M & E).
  destruct (E (S M) k ltac:(lia)) as (it & E1 & X). exists it. split.
  - exists (S M). intros fuel Hf. destruct (E fuel k ltac:(lia)) as (it' & E' & X').
    unfold query_after, begin_query. cbn [tr_alg tr_root new_transducer].
    assert (Ok it' = Ok it) as Y; [|injection Y as <-; exact E'].
    rewrite <- E'. clear E' X' X. revert E1. generalize (RootI (d_root d) initial_state). intros root E1.
    destruct (new_query rt h alg q n (S M) root) as [q0| |] eqn:E0; cbn [rbind] in E1; try discriminate.
    rewrite (new_query_mono rt h alg q n (S M) fuel root q0) by (auto; lia). cbn [rbind].
    eapply increments_mono; eauto.
  - rewrite render_scored. unfold scored. rewrite nth_error_map.
    change (matches alg q n (trie terms)) with (found alg terms q n) in X.
    destruct (nth_error (found alg terms q n) k); exact X.
Qed.

Lemma query_after_no_ub_main : forall R (rt : result_type R) alg terms h d q n k fuel,
  dictionary terms h d -> within_limits terms q n ->
  query_after rt fuel h (new_transducer alg (d_root d)) q n k <> UB.
Proof.
  intros R rt alg terms h d q n k fuel D (Lq & Ln & Lt). destruct (dictionary_unf _ _ _ D) as (U & _).
  destruct (longest terms small_depth) as (B & SB & HB). { unfold small_depth; lia. } { exact Lt. }
  exact (query_after_no_ub rt h alg q n B Lq Ln SB (d_root d) (trie terms) U (trie_height _ _ HB) fuel k).
Qed.

Lemma words_permutation : forall terms, strictly_ascending terms -> Permutation (words (trie terms)) terms.
Proof.
  intros terms St. apply NoDup_Permutation.
  - eapply StronglySorted_NoDup; eauto using shortlex_irrefl, words_sorted, trie_sorted.
  - eapply StronglySorted_NoDup with (R := lex_lt); eauto using lex_irrefl.
    apply sorted_by_StronglySorted; auto. intros; eapply lex_trans; eauto.
  - intros w. rewrite words_In by apply trie_sorted. apply tin_trie.
Qed.

Lemma iterate_words : forall terms h d, strictly_ascending terms -> (N.of_nat (length terms) < W)%N ->
  unf h (d_root d) (trie terms) -> d_size d = (N.of_nat (length terms) mod W)%N ->
  runs_to (fun fuel => iterate fuel h d) (words (trie terms)).
Proof.
  intros terms h d St L U E. rewrite N.mod_small in E by auto.
  pose proof (Permutation_length (words_permutation terms St)) as Len.
  exists (tsize (trie terms) + length terms + 2). intros fuel Hf.
  rewrite iterate_ok with (t := trie terms) (n := length terms); auto; [|lia|rewrite E; exact L].
  f_equal. rewrite <- Len. destruct (words (trie terms)) as [|w l] eqn:Ew; auto.
  cbn [length tl next_value]. apply emitted_all.
Qed.

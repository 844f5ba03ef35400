(** * PropsSnapshot: a query or an iterator over a dictionary that is still being
    built (C84).

    See SpecSnapshot.  A Transducer made from d->root() before finish() looks at the
    nodes that are registered already; these never change again. *)
From Coq Require Import Sorting.Sorted.
From Verif Require Import Base Spec ModelTransducer ModelDawg ModelQuery SpecDawg SpecQuery SpecOutlive SpecSnapshot AlignProofs
  TransProofs StateProofs TreeProofs HeapProofs BuildProofs BuildProofs2 IterProofs DawgProofs ModelSerial SerialProofs QueryProofs
  QueryFacts OutliveProofs SnapshotProofs PropsDawg PropsQuery.
Local Open Scope nat_scope.

(** A dictionary under construction, set up for the lemmas of SnapshotProofs. *)
Lemma at_work : forall alloc h0 history es, allocator alloc -> in_order es ->
  (forall t, In t (history ++ terms_in es) -> (N.of_nat (length t) < 2 ^ 62)%N) ->
  exists flags kept h b B tr,
    greedy [] history flags kept /\
    runs_to (fun fuel => under_construction fuel alloc h0 history) (flags, h, b) /\
    d_size (b_dawg b) = (N.of_nat (length kept) mod W)%N /\
    small_depth B /\ stage (S B) h0 (d_root (b_dawg b)) h b es /\
    unf h (d_root (b_dawg b)) tr /\ tsorted tr /\ height tr <= S B /\ forall w, tin tr w = true <-> findable kept w.
Proof.
  intros alloc h0 history es A O Lt.
  destruct (longest (history ++ terms_in es) small_depth) as (B & SB & HB). { unfold small_depth; lia. } { exact Lt. }
  destruct (under_construction_at alloc h0 history (S B) A) as (flags & kept & h & b & w & frs & t0 & G & E & BI & P & Sz); [lia| |].
  { intros t I. specialize (HB t ltac:(apply in_or_app; auto)). lia. }
  destruct (findable_tree _ _ _ _ _ _ _ _ BI P) as (tr & U & So & Hh & I).
  exists flags, kept, h, b, B, tr. split; auto. split; [exists (S B); auto|]. split; auto. split; auto. split; [|auto].
  split; auto. left. exists (trie kept), w, frs, t0. split; auto. split; [apply trie_useful|]. split; auto.
  intros t J. specialize (HB t ltac:(apply in_or_app; auto)). lia.
Qed.

(** ** C84: a query is a snapshot: it yields the terms that could be found when it
    was begun, whatever is added afterwards, whether or not the dictionary is
    finished meanwhile, and however these calls are interleaved with the
    increments. *)
Theorem C84_query : forall R (rt : result_type R) alg alloc h0 history es x n, allocator alloc ->
  in_order es -> within_limits (history ++ terms_in es) x n ->
  exists flags kept h b q0 answers,
    greedy [] history flags kept /\
    runs_to (fun fuel => under_construction fuel alloc h0 history) (flags, h, b) /\
    runs_to (fun fuel => begin_query rt fuel h (new_transducer alg (d_root (b_dawg b))) x n) q0 /\
    lists alg x n (findable kept) answers /\ shows rt answers 0 q0 /\
    (~ (In [] kept /\ (N.of_nat (length x) <= n)%N) ->
     exists h' b' q', runs_to (fun fuel => play (query_step rt alg x n) fuel alloc h b q0 es) (h', b', q') /\
       shows rt answers (increments_in es) q').
Proof.
  intros R rt alg alloc h0 history es x n A O (Lx & Ln & Lt).
  destruct (at_work alloc h0 history es A O Lt) as (flags & kept & h & b & B & tr & G & E & _ & SB & St & U & So & Hh & I).
  destruct (query_after_tree R rt alg x n h _ tr B Lx Ln SB U Hh) as (M & Q). destruct (Q 0) as (q0 & E0 & X0).
  assert (Eb : forall fuel, M < fuel -> begin_query rt fuel h (new_transducer alg (d_root (b_dawg b))) x n = Ok q0).
  { intros fuel Hf. specialize (E0 fuel Hf). unfold query_after in E0. cbn [increments] in E0.
    destruct (begin_query _ _ _ _ _ _); cbn [rbind] in E0; auto. }
  exists flags, kept, h, b, q0, (graded alg x n tr). split; auto. split; auto.
  split; [exists (S M); intros; apply Eb; lia|]. split; [apply graded_lists; auto|]. split; [apply graded_shows; auto|].
  intros Ns. destruct (query_play R rt alg x n alloc B h0 h b es A St Lx Ln SB tr U Hh) as (q1 & h' & b' & q' & (M1 & E1) & Ep & X).
  { intros [T L]. apply Ns. split; auto. apply I in T. apply T. }
  assert (q1 = q0) as ->.
  { specialize (E1 (S M + M1) ltac:(lia)). rewrite Eb in E1 by lia. congruence. }
  eauto.
Qed.
Print Assumptions C84_query.

(** If the empty term has been accepted and is an answer, then it is the first one,
    and the snapshot is taken by the first increment instead. *)
Theorem C84_query_empty : forall R (rt : result_type R) alg alloc h0 history before after x n, allocator alloc ->
  in_order (before ++ Incrementing :: after) -> increments_in before = 0 ->
  within_limits (history ++ terms_in (before ++ Incrementing :: after)) x n ->
  exists flags kept h b q0,
    greedy [] history flags kept /\
    runs_to (fun fuel => under_construction fuel alloc h0 history) (flags, h, b) /\
    runs_to (fun fuel => begin_query rt fuel h (new_transducer alg (d_root (b_dawg b))) x n) q0 /\
    (In [] kept /\ (N.of_nat (length x) <= n)%N ->
     exists hs bs h' b' q' answers,
       runs_to (fun fuel => play (query_step rt alg x n) fuel alloc h b q0 before) (hs, bs, q0) /\
       lists alg x n (accepts_from hs (d_root (b_dawg bs))) answers /\
       hd_error answers = Some ([], N.of_nat (length x)) /\ shows rt answers 0 q0 /\
       runs_to (fun fuel => play (query_step rt alg x n) fuel alloc h b q0 (before ++ Incrementing :: after)) (h', b', q') /\
       shows rt answers (S (increments_in after)) q').
Proof.
  intros R rt alg alloc h0 history pre es x n A O Z (Lx & Ln & Lt).
  destruct (at_work alloc h0 history _ A O Lt) as (flags & kept & h & b & B & tr & G & E & _ & SB & St & U & So & Hh & I).
  destruct (query_after_tree R rt alg x n h _ tr B Lx Ln SB U Hh) as (M & Q). destruct (Q 0) as (q0 & E0 & X0).
  assert (Eb : forall fuel, M < fuel -> begin_query rt fuel h (new_transducer alg (d_root (b_dawg b))) x n = Ok q0).
  { intros fuel Hf. specialize (E0 fuel Hf). unfold query_after in E0. cbn [increments] in E0.
    destruct (begin_query _ _ _ _ _ _); cbn [rbind] in E0; auto. }
  exists flags, kept, h, b, q0. split; auto. split; auto.
  split; [exists (S M); intros; apply Eb; lia|]. intros [K L].
  destruct (query_play_empty R rt alg x n alloc B h0 h b pre es A St Z Lx Ln SB tr U) as
    (q1 & hs & bs & h' & b' & q' & tr' & (M1 & E1) & C1 & V1 & Ep & Rs & U' & T' & Ep' & X); auto.
  { apply I. split; auto. }
  assert (q1 = q0) as ->.
  { specialize (E1 (S M + M1) ltac:(lia)). rewrite Eb in E1 by lia. congruence. }
  exists hs, bs, h', b', q', (graded alg x n tr'). split; auto.
  assert (F : hd_error (graded alg x n tr') = Some ([], N.of_nat (length x))).
  { apply graded_empty; auto. eapply unf_tsorted; eauto. }
  split. { rewrite Rs. apply graded_lists; [eapply unf_tsorted; eauto|]. intros w. symmetry. apply accepts_tin. auto. }
  split; auto. split.
  { unfold shows. destruct (graded alg x n tr') as [|[w d] l]; [discriminate|]. cbn in F. injection F as -> ->. cbn [nth_error]. auto. }
  auto.
Qed.
Print Assumptions C84_query_empty.

(** An iterator over the terms is a snapshot too. *)
Theorem C84_iterator : forall alloc h0 history es, allocator alloc -> in_order es ->
  (forall t, In t (history ++ terms_in es) -> (N.of_nat (length t) < 2 ^ 62)%N) ->
  exists flags kept h b ws it0 h' b' it,
    greedy [] history flags kept /\
    runs_to (fun fuel => under_construction fuel alloc h0 history) (flags, h, b) /\
    StronglySorted shortlex_lt ws /\ (forall w, In w ws <-> findable kept w) /\
    runs_to (fun fuel => dawg_begin fuel h (b_dawg b)) it0 /\
    runs_to (fun fuel => play iter_next fuel alloc h b it0 es) (h', b', it) /\
    it_value it = nth (increments_in es) ws (last ws []).
Proof.
  intros alloc h0 history es A O Lt.
  destruct (at_work alloc h0 history es A O Lt) as (flags & kept & h & b & B & tr & G & E & _ & SB & St & U & So & Hh & I).
  destruct (iter_play alloc (S B) h0 h b es A St tr U) as (it0 & h' & b' & it & E0 & Ep & V).
  exists flags, kept, h, b, (words tr), it0, h', b', it. split; auto. split; auto.
  split; [apply words_sorted; auto|]. split; [intros w; rewrite words_In by auto; apply I|]. auto.
Qed.
Print Assumptions C84_iterator.

(** But a range-for over a dictionary that is not finished takes size() steps
    although not all terms can be found yet: it repeats the last one it finds, or
    the empty term if it finds none. *)
Theorem C84_loop : forall alloc h0 history, allocator alloc ->
  (forall t, In t history -> (N.of_nat (length t) < 2 ^ 62)%N) -> (N.of_nat (length history) < 2 ^ 64)%N ->
  exists flags kept h b ws,
    greedy [] history flags kept /\
    runs_to (fun fuel => under_construction fuel alloc h0 history) (flags, h, b) /\
    StronglySorted shortlex_lt ws /\ (forall w, In w ws <-> findable kept w) /\
    runs_to (fun fuel => iterate fuel h (b_dawg b)) (ws ++ repeat (last ws []) (length kept - length ws)).
Proof.
  intros alloc h0 history A Lt Lh.
  destruct (at_work alloc h0 history [] A) as (flags & kept & h & b & B & tr & G & E & Sz & SB & St & U & So & Hh & I).
  { exists [], false, false. reflexivity. } { cbn [terms_in flat_map]. rewrite app_nil_r. auto. }
  exists flags, kept, h, b, (words tr). split; auto. split; auto. split; [apply words_sorted; auto|].
  split; [intros w; rewrite words_In by auto; apply I|].
  assert (Lk : (N.of_nat (length kept) < W)%N). { pose proof (greedy_length _ _ _ _ G). unfold W. lia. }
  rewrite N.mod_small in Sz by auto.
  apply iterate_unfinished; auto. { lia. }
  apply NoDup_incl_length. { apply StronglySorted_NoDup with shortlex_lt; [apply shortlex_irrefl|apply words_sorted; auto]. }
  intros w J. apply words_In in J; auto. apply I in J. apply J.
Qed.
Print Assumptions C84_loop.

(** So it may list a term that was never added, and leave out one that was. *)
Theorem C84_loop_refuted : exists alloc history h b,
  allocator alloc /\ ascending history /\
  runs_to (fun fuel => under_construction fuel alloc [] history) (map (fun _ => true) history, h, b) /\
  exists out w, runs_to (fun fuel => iterate fuel h (b_dawg b)) out /\ In w out /\ ~ In w history /\
    exists v, In v history /\ ~ In v out.
Proof.
  exists bump, [sb]. eexists _, _. split; [apply bump_allocator|]. split; [unfold ascending; ascending_tac|].
  split. { exists 9. intros fuel H. do 9 (destruct fuel as [|fuel]; [lia|]). vm_compute. reflexivity. }
  exists [[]], []. split. { exists 9. intros fuel H. do 9 (destruct fuel as [|fuel]; [lia|]). vm_compute. reflexivity. }
  split; [left; auto|]. split; [intros [X|[]]; discriminate|]. exists sb. split; [left; auto|]. intros [X|[]]; discriminate.
Qed.
Print Assumptions C84_loop_refuted.

(** ** Examples *)
(** "a", "ab" and "b" are added, a query for "ab" within distance 1 is begun, which
    stands on "a"; then "c" is added, the query is incremented, the dictionary is
    finished and cleaned up, and the query is incremented twice. *)
Definition some_events : list event :=
  [Adding (lit "c"); Incrementing; Finishing; Incrementing; CleaningUp; Incrementing].

Example C84_case_order : in_order some_events /\ increments_in some_events = 3.
Proof. split; [exists [lit "c"], true, true|]; reflexivity. Qed.

Example C84_case : exists h b q0 h' b' q',
  runs_to (fun fuel => under_construction fuel bump [] [sa; sab; sb]) ([true; true; true], h, b) /\
  runs_to (fun fuel => begin_query as_candidate fuel h (new_transducer STANDARD (d_root (b_dawg b))) sab 1) q0 /\
  q_complete q0 = false /\ q_candidate q0 = (sa, 1%N) /\
  runs_to (fun fuel => play (query_step as_candidate STANDARD sab 1) fuel bump h b q0 [Adding (lit "c"); Incrementing; Finishing])
    (h', b', q') /\
  q_complete q' = false /\ q_candidate q' = (sab, 0%N) /\
  contains h (b_dawg b) sb = Ok false /\ contains h' (b_dawg b') sb = Ok true.
Proof.
  do 6 eexists. split; [exists 20; intros fuel H; do 20 (destruct fuel as [|fuel]; [lia|]); vm_compute; reflexivity|].
  split; [exists 20; intros fuel H; do 20 (destruct fuel as [|fuel]; [lia|]); vm_compute; reflexivity|].
  split; [reflexivity|]. split; [reflexivity|].
  split; [exists 20; intros fuel H; do 20 (destruct fuel as [|fuel]; [lia|]); vm_compute; reflexivity|].
  repeat split; vm_compute; reflexivity.
Qed.

(** "b" is within distance 1 of "ab" but was not findable when the query was begun. *)
Example C84_case_end : exists h b q0 h' b' q',
  runs_to (fun fuel => under_construction fuel bump [] [sa; sab; sb]) ([true; true; true], h, b) /\
  runs_to (fun fuel => begin_query as_candidate fuel h (new_transducer STANDARD (d_root (b_dawg b))) sab 1) q0 /\
  runs_to (fun fuel => play (query_step as_candidate STANDARD sab 1) fuel bump h b q0 some_events) (h', b', q') /\
  q_complete q' = true.
Proof.
  do 6 eexists. split; [exists 20; intros fuel H; do 20 (destruct fuel as [|fuel]; [lia|]); vm_compute; reflexivity|].
  split; [exists 20; intros fuel H; do 20 (destruct fuel as [|fuel]; [lia|]); vm_compute; reflexivity|].
  split; [exists 20; intros fuel H; do 20 (destruct fuel as [|fuel]; [lia|]); vm_compute; reflexivity|].
  reflexivity.
Qed.

Example C84_case_limits : within_limits ([sa; sab; sb] ++ terms_in some_events) sab 1.
Proof.
  split; [apply manageable_short; vm_compute; discriminate|]. split; [discriminate|].
  intros t I. change (In t [sa; sab; sb; lit "c"]) in I. repeat (destruct I as [<-|I]; [reflexivity|]). destruct I.
Qed.

(** With the empty term in the dictionary a term added before the first increment is
    found: here "b", which is findable once "c" has been added. *)
Example C84_case_empty : exists h b q0 h' b' q',
  runs_to (fun fuel => under_construction fuel bump [] [[]; sa; sb]) ([true; true; true], h, b) /\
  runs_to (fun fuel => begin_query as_string fuel h (new_transducer STANDARD (d_root (b_dawg b))) sa 1) q0 /\
  q_candidate q0 = [] /\ contains h (b_dawg b) sb = Ok false /\
  runs_to (fun fuel => play (query_step as_string STANDARD sa 1) fuel bump h b q0 [Adding (lit "c"); Incrementing; Incrementing])
    (h', b', q') /\
  q_complete q' = false /\ q_candidate q' = sb.
Proof.
  do 6 eexists. split; [exists 20; intros fuel H; do 20 (destruct fuel as [|fuel]; [lia|]); vm_compute; reflexivity|].
  split; [exists 20; intros fuel H; do 20 (destruct fuel as [|fuel]; [lia|]); vm_compute; reflexivity|].
  split; [reflexivity|]. split; [vm_compute; reflexivity|].
  split; [exists 20; intros fuel H; do 20 (destruct fuel as [|fuel]; [lia|]); vm_compute; reflexivity|].
  split; reflexivity.
Qed.

(** The range-for after "a", "ab", "b" and "c". *)
Example C84_case_loop : exists h b,
  runs_to (fun fuel => under_construction fuel bump [] [sa; sab; sb; lit "c"]) ([true; true; true; true], h, b) /\
  runs_to (fun fuel => iterate fuel h (b_dawg b)) [sa; sb; sab; sab].
Proof.
  do 2 eexists. split; [exists 20; intros fuel H; do 20 (destruct fuel as [|fuel]; [lia|]); vm_compute; reflexivity|].
  exists 20; intros fuel H; do 20 (destruct fuel as [|fuel]; [lia|]); vm_compute; reflexivity.
Qed.

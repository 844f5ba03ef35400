(** * Properties C01-C11: the distance classes. *)
From Verif Require Import Base Spec ModelDistance SpecDistance AlignProofs DistProofs DistFacts.

(** C01: StandardDistance::between returns the least number of insertions,
    deletions and substitutions, whatever was called before. *)
Theorem C01_standard_exact : forall v w,
  exists d, returns STANDARD v w d /\ least (fun n => edits STANDARD n v w) d.
Proof. exact (returns_correct STANDARD). Qed.
Print Assumptions C01_standard_exact.

Example C01_case : returns STANDARD (lit "kitten") (lit "sitting") 3.
Proof. apply returns_iff; vm_compute; reflexivity. Qed.

(** C02: likewise with merges and splits. *)
Theorem C02_merge_and_split_exact : forall v w,
  exists d, returns MERGE_AND_SPLIT v w d /\ least (fun n => edits MERGE_AND_SPLIT n v w) d.
Proof. exact (returns_correct MERGE_AND_SPLIT). Qed.
Print Assumptions C02_merge_and_split_exact.

Example C02_case : returns MERGE_AND_SPLIT (lit "corn") (lit "com") 1 /\
                   returns STANDARD (lit "corn") (lit "com") 2.
Proof. split; apply returns_iff; vm_compute; reflexivity. Qed.

(** C03: TranspositionDistance::between returns the least alignment cost. *)
Theorem C03_transposition_exact : forall v w,
  exists d, returns TRANSPOSITION v w d /\ least (fun n => aligned TRANSPOSITION n v w) d.
Proof. exact (returns_correct TRANSPOSITION). Qed.
Print Assumptions C03_transposition_exact.

Example C03_case : returns TRANSPOSITION (lit "form") (lit "from") 1 /\
                   returns TRANSPOSITION (lit "CA") (lit "ABC") 3.
Proof. split; apply returns_iff; vm_compute; reflexivity. Qed.

(** C04, C05: metric axioms. *)
Theorem C04_standard_metric :
  (forall x, returns STANDARD x x 0) /\
  (forall x y d, returns STANDARD x y d -> x <> y -> d > 0) /\
  (forall x y d, returns STANDARD x y d -> returns STANDARD y x d) /\
  (forall x y z dxy dyz dxz, returns STANDARD x y dxy -> returns STANDARD y z dyz ->
     returns STANDARD x z dxz -> dxz <= dxy + dyz).
Proof.
  destruct (metric_base STANDARD) as (H1 & H2 & H3).
  repeat split; auto. intros; eapply metric_triangle; eauto; discriminate.
Qed.
Print Assumptions C04_standard_metric.

Theorem C05_merge_and_split_metric :
  (forall x, returns MERGE_AND_SPLIT x x 0) /\
  (forall x y d, returns MERGE_AND_SPLIT x y d -> x <> y -> d > 0) /\
  (forall x y d, returns MERGE_AND_SPLIT x y d -> returns MERGE_AND_SPLIT y x d) /\
  (forall x y z dxy dyz dxz, returns MERGE_AND_SPLIT x y dxy -> returns MERGE_AND_SPLIT y z dyz ->
     returns MERGE_AND_SPLIT x z dxz -> dxz <= dxy + dyz).
Proof.
  destruct (metric_base MERGE_AND_SPLIT) as (H1 & H2 & H3).
  repeat split; auto. intros; eapply metric_triangle; eauto; discriminate.
Qed.
Print Assumptions C05_merge_and_split_metric.

Example C05_case : returns MERGE_AND_SPLIT (lit "abcd") (lit "xd") 2 /\
  returns MERGE_AND_SPLIT (lit "xd") (lit "xyz") 1 /\ returns MERGE_AND_SPLIT (lit "abcd") (lit "xyz") 3.
Proof. repeat split; apply returns_iff; vm_compute; reflexivity. Qed.

(** C06: the transposition distance satisfies axioms 1-3; axiom 4 fails. *)
Theorem C06_transposition_axioms_1_3 :
  (forall x, returns TRANSPOSITION x x 0) /\
  (forall x y d, returns TRANSPOSITION x y d -> x <> y -> d > 0) /\
  (forall x y d, returns TRANSPOSITION x y d -> returns TRANSPOSITION y x d).
Proof. exact (metric_base TRANSPOSITION). Qed.
Print Assumptions C06_transposition_axioms_1_3.

Theorem C06_transposition_triangle_refuted :
  exists x y z dxy dyz dxz, returns TRANSPOSITION x y dxy /\ returns TRANSPOSITION y z dyz /\
    returns TRANSPOSITION x z dxz /\ dxz > dxy + dyz.
Proof.
  exists (lit "CA"), (lit "AC"), (lit "ABC"), 1, 1, 3.
  repeat split; try (apply returns_iff; vm_compute; reflexivity). lia.
Qed.
Print Assumptions C06_transposition_triangle_refuted.

(** C07: common prefixes and suffixes. *)
Theorem C07_context_invariant : forall alg x y z d, returns alg x y d ->
  returns alg (z ++ x) (z ++ y) d /\ returns alg (x ++ z) (y ++ z) d.
Proof.
  intros alg x y z d H. to_dst. split; apply returns_iff; symmetry; [apply dst_app_l|apply dst_app_r].
Qed.
Print Assumptions C07_context_invariant.

(** C08: all histories, all orders, swapped arguments. *)
Theorem C08_history_independent : forall alg calls_made,
  exists ds, answers alg calls_made ds /\ Forall2 (correct alg) calls_made ds.
Proof. exact answers_correct. Qed.
Print Assumptions C08_history_independent.

Theorem C08_same_answer_always : forall alg v w,
  exists d, returns alg v w d /\ returns alg w v d /\ forall d', returns alg v w d' -> d' = d.
Proof.
  intros alg v w; exists (dst alg v w). repeat split.
  - apply returns_dst.
  - apply returns_iff, dst_sym.
  - intros d' H; now to_dst.
Qed.
Print Assumptions C08_same_answer_always.

Example C08_case : answers STANDARD
  [(lit "ab", lit "b"); (lit "b", lit "ab"); (lit "xab", lit "yb"); (lit "ab", lit "b")] [1; 1; 2; 1].
Proof. eexists; vm_compute; reflexivity. Qed.

(** C09: any number of threads, each making any list of calls on one shared
    object, under any interleaving.  After any schedule of [n] critical
    sections: [n] is bounded, and each thread has either returned the right
    answers to all its calls or can take another step. *)
Theorem C09_every_schedule : forall alg css,
  exists B, forall n m ps, pool_steps n ([], map (calls alg) css) (m, ps) ->
    n <= B /\ length ps = length css /\
    forall i cs, nth_error css i = Some cs ->
      exists p, nth_error ps i = Some p /\
        ((exists ds, p = Ret ds /\ Forall2 (correct alg) cs ds) \/
         (exists m' p', thread_step m p m' p')).
Proof. exact pool_correct. Qed.
Print Assumptions C09_every_schedule.

(** Two threads computing the same distance, both missing the memo first. *)
Example C09_case : exists m,
  pool_steps 4 ([], map (calls STANDARD) [[([], lit "a")]; [(lit "a", [])]])
               (m, [Ret [1]; Ret [1]]).
Proof.
  eexists. cbn.
  eapply pool_more; [eapply (pool_step_at _ _ []); constructor|cbn].
  eapply pool_more; [eapply (pool_step_at _ _ [_]); constructor|cbn].
  eapply pool_more; [eapply (pool_step_at _ _ [_]); constructor|cbn].
  eapply pool_more; [eapply (pool_step_at _ _ []); constructor|cbn].
  constructor.
Qed.

(** C10: bounds. *)
Theorem C10_bounds : forall v w ds dt dm,
  returns STANDARD v w ds -> returns TRANSPOSITION v w dt -> returns MERGE_AND_SPLIT v w dm ->
  (length v - length w) + (length w - length v) <= ds /\ ds <= Nat.max (length v) (length w) /\
  dt <= ds /\ ds <= 2 * dt /\ dm <= ds /\ ds <= 2 * dm.
Proof.
  intros; to_dst.
  pose proof (dst_len STANDARD v w). pose proof (dst_max STANDARD v w).
  pose proof (dst_le_std TRANSPOSITION v w). pose proof (dst_std_le TRANSPOSITION v w).
  pose proof (dst_le_std MERGE_AND_SPLIT v w). pose proof (dst_std_le MERGE_AND_SPLIT v w).
  lia.
Qed.
Print Assumptions C10_bounds.

(** C11: the documented "minimum number of elementary operations" is only an
    upper bound for the transposition distance. *)
Theorem C11_transposition_suffices : forall v w d,
  returns TRANSPOSITION v w d -> edits TRANSPOSITION d v w.
Proof. intros v w d H; to_dst. apply aligned_edits, dst_attained. Qed.
Print Assumptions C11_transposition_suffices.

Theorem C11_transposition_minimum_refuted :
  exists v w d n, returns TRANSPOSITION v w d /\ edits TRANSPOSITION n v w /\ n < d.
Proof.
  exists (lit "CA"), (lit "ABC"), 3, 2. repeat split.
  - apply returns_iff; vm_compute; reflexivity.
  - eapply edits_step; [apply (op_transpose TRANSPOSITION []); reflexivity|].
    eapply edits_step; [apply (op_insert TRANSPOSITION (lit "A") (lit "C") "B"%char)|].
    apply edits_done.
  - lia.
Qed.
Print Assumptions C11_transposition_minimum_refuted.

(** * C117: One keystroke more or less.

    What one more mistake in one of the strings, or several of them, changes in a
    distance and in the answers to a query. *)
From Coq Require Import Sorting.Sorted.
From Verif Require Import Base Spec ModelTransducer ModelDawg ModelQuery SpecDawg SpecQuery SpecDistance
  AlignProofs DistFacts PropsDawg IterProofs QueryProofs QueryFacts PropsQuery PropsRelated.
Local Open Scope nat_scope.

(** By how much a distance may change if one operation is applied to a string. *)
Definition slack (alg : algorithm) : nat := match alg with TRANSPOSITION => 2 | _ => 1 end.

(** The operations of TRANSPOSITION, from the front. *)
Inductive keystroke : str -> str -> Prop :=
| key_typed : forall c v, keystroke v (c :: v)
| key_missed : forall c v, keystroke (c :: v) v
| key_wrong : forall c e v, keystroke (c :: v) (e :: v)
| key_swapped : forall c d v, keystroke (c :: d :: v) (d :: c :: v)
| key_later : forall x v v', keystroke v v' -> keystroke (x :: v) (x :: v').

Lemma keystroke_after : forall x v v', keystroke v v' -> keystroke (x ++ v) (x ++ v').
Proof. induction x; cbn; auto using key_later. Qed.

Lemma op_keystroke : forall v v', edit_op TRANSPOSITION v v' -> keystroke v v'.
Proof. intros v v' H. inversion H; subst; try discriminate; apply keystroke_after; constructor. Qed.

Lemma head_wrong : forall a n v w, aligned a n v w -> a = TRANSPOSITION -> forall c e v', v = c :: v' -> cost_le a (S n) (e :: v') w.
Proof.
  intros a n v w H. induction H; intros Ea x z v' E; try (injection E as -> ->); try discriminate; try congruence.
  - apply cle_sub, cle_intro. auto.
  - apply cle_weaken with (S n); [|lia]. apply cle_del, cle_intro. auto.
  - subst. apply cle_ins. eauto.
  - apply cle_weaken with (S n); [|lia]. apply cle_sub, cle_intro. auto.
  - injection E as -> <-. apply cle_sub, cle_sub, cle_intro. auto.
Qed.

Lemma head_missed : forall a n v w, aligned a n v w -> a = TRANSPOSITION -> forall c v', v = c :: v' -> cost_le a (S n) v' w.
Proof.
  intros a n v w H. induction H; intros Ea x v' E; try (injection E as -> ->); try discriminate; try congruence.
  - apply cle_ins, cle_intro. auto.
  - apply cle_weaken with n; [|lia]. apply cle_intro. auto.
  - subst. apply cle_ins. eauto.
  - apply cle_weaken with (S n); [|lia]. apply cle_ins, cle_intro. auto.
  - injection E as -> <-. apply cle_weaken with (S n); [|lia]. apply cle_eq, cle_ins, cle_intro. auto.
Qed.

Lemma head_swapped : forall a n v w, aligned a n v w -> a = TRANSPOSITION -> forall c d v', v = c :: d :: v' -> cost_le a (S (S n)) (d :: c :: v') w.
Proof.
  intros a n v w H. induction H; intros Ea x y v' E; try discriminate; try congruence.
  - injection E as -> ->. apply cle_sub. eapply head_wrong; eauto.
  - injection E as -> ->. apply cle_weaken with (S (S n)); [|lia]. apply cle_del. eapply head_wrong; eauto.
  - subst. apply cle_ins. eauto.
  - injection E as -> ->. apply cle_weaken with (S (S n)); [|lia]. apply cle_sub. eapply head_wrong; eauto.
  - injection E as -> -> ->. apply cle_weaken with n; [|lia]. apply cle_eq, cle_eq, cle_intro. auto.
Qed.

Lemma keystroke_cost : forall a n v w, aligned a n v w -> a = TRANSPOSITION -> forall v', keystroke v v' -> cost_le a (S (S n)) v' w.
Proof.
  intros a n v w H. induction H; intros Ea v' K; try congruence.
  - inversion K; subst. apply cle_weaken with 1; [|lia]. apply cle_del, cle_nil.
  - inversion K; subst.
    + apply cle_weaken with (S n); [|lia]. apply cle_del, cle_intro. auto with al.
    + apply cle_weaken with (S n); [|lia]. eapply head_missed; eauto with al.
    + apply cle_weaken with (S n); [|lia]. eapply head_wrong; eauto with al.
    + eapply head_swapped; eauto with al.
    + apply cle_eq. auto.
  - inversion K; subst.
    + apply cle_weaken with (S (S n)); [|lia]. apply cle_del, cle_intro. auto with al.
    + apply cle_weaken with n; [|lia]. apply cle_intro. auto.
    + apply cle_weaken with (S n); [|lia]. apply cle_del, cle_intro. auto.
    + eapply head_swapped; eauto with al.
    + apply cle_del. auto.
  - apply cle_ins. auto.
  - inversion K; subst.
    + apply cle_weaken with (S (S n)); [|lia]. apply cle_del, cle_intro. auto with al.
    + apply cle_weaken with (S n); [|lia]. apply cle_ins, cle_intro. auto.
    + apply cle_weaken with (S n); [|lia]. apply cle_sub, cle_intro. auto.
    + eapply head_swapped; eauto with al.
    + apply cle_sub. auto.
  - inversion K as [| | | |x u u' K']; subst.
    + apply cle_weaken with (S (S n)); [|lia]. apply cle_del, cle_intro. auto with al.
    + apply cle_weaken with (S n); [|lia]. apply cle_eq, cle_ins, cle_intro. auto.
    + apply cle_weaken with (S (S n)); [|lia]. apply cle_sub, cle_sub, cle_intro. auto.
    + apply cle_weaken with n; [|lia]. apply cle_eq, cle_eq, cle_intro. auto.
    + inversion K' as [| | | |y u u'' K'']; subst.
      * apply cle_sub, cle_sub, cle_del, cle_intro. auto.
      * apply cle_weaken with (S n); [|lia]. apply cle_ins, cle_eq, cle_intro. auto.
      * apply cle_weaken with (S (S n)); [|lia]. apply cle_sub, cle_sub, cle_intro. auto.
      * apply cle_sub, cle_sub. eapply head_wrong; eauto.
      * apply cle_tr; auto.
Qed.

Lemma op_dst : forall alg v v' w, edit_op alg v v' -> dst alg v' w <= dst alg v w + slack alg.
Proof.
  intros alg v v' w O. destruct alg; cbn [slack].
  - pose proof (dst_triangle STANDARD v' v w ltac:(discriminate)).
    destruct (dst_least_edits STANDARD v v' ltac:(discriminate)) as (_ & L). specialize (L 1 (edits_step _ _ _ _ _ O (edits_done _ _))).
    rewrite (dst_sym STANDARD v' v) in H. lia.
  - apply dst_le. rewrite Nat.add_comm. destruct (dst_least_aligned TRANSPOSITION v w) as (A & _).
    exact (keystroke_cost _ _ _ _ A eq_refl _ (op_keystroke _ _ O)).
  - pose proof (dst_triangle MERGE_AND_SPLIT v' v w ltac:(discriminate)).
    destruct (dst_least_edits MERGE_AND_SPLIT v v' ltac:(discriminate)) as (_ & L). specialize (L 1 (edits_step _ _ _ _ _ O (edits_done _ _))).
    rewrite (dst_sym MERGE_AND_SPLIT v' v) in H. lia.
Qed.

Lemma edits_dst : forall alg k v v' w, edits alg k v v' -> dst alg v' w <= dst alg v w + k * slack alg.
Proof.
  intros alg k v v' w E. induction E as [v|k u v v' O E IH]; [lia|]. pose proof (op_dst alg u v w O). cbn [Nat.mul]. lia.
Qed.

Lemma op_back : forall alg v v', edit_op alg v v' -> edit_op alg v' v.
Proof. intros alg v v' []; now constructor. Qed.

Lemma near_dst : forall alg v v' w, dst alg v' w <= dst alg v w + dst alg v v' * slack alg.
Proof.
  intros alg v v' w. apply edits_dst. destruct (dst_least_aligned alg v v') as (A & _). now apply aligned_edits.
Qed.

(** ** Distances *)

(** One operation changes the distance to any other string by at most 1, for
    TRANSPOSITION by at most 2. *)
Theorem C117_operation : forall alg v v' w d d', edit_op alg v v' -> returns alg v w d -> returns alg v' w d' ->
  d' <= d + slack alg /\ d <= d' + slack alg.
Proof. intros. to_dst. auto using op_dst, op_back. Qed.
Print Assumptions C117_operation.

(** Instead of the triangle inequality, which TRANSPOSITION does not obey (C06), a
    weaker one holds: the way round is at most once more as long as one of its
    parts, whichever. *)
Theorem C117_triangle : forall x y z d1 d2 d, returns TRANSPOSITION x y d1 -> returns TRANSPOSITION y z d2 -> returns TRANSPOSITION x z d ->
  d <= d1 + 2 * d2 /\ d <= 2 * d1 + d2.
Proof.
  intros x y z d1 d2 d H1 H2 H. to_dst. pose proof (near_dst TRANSPOSITION y z x). pose proof (near_dst TRANSPOSITION y x z). cbn [slack] in *.
  rewrite (dst_sym _ x z), (dst_sym _ x y) in *. rewrite (dst_sym _ z x), (dst_sym _ y x) in *. lia.
Qed.
Print Assumptions C117_triangle.

(** Neither can be improved. *)
Theorem C117_operation_refuted : exists v v' w d, edit_op STANDARD v v' /\ edit_op TRANSPOSITION v v' /\
  returns TRANSPOSITION v w d /\ returns TRANSPOSITION v' w (d + 2).
Proof.
  exists (lit "ca"), (lit "cba"), (lit "ac"), 1. split; [exact (op_insert _ (lit "c") (lit "a") "b"%char)|].
  split; [exact (op_insert _ (lit "c") (lit "a") "b"%char)|]. split; apply returns_iff; vm_compute; reflexivity.
Qed.
Print Assumptions C117_operation_refuted.

Example C117_case : returns TRANSPOSITION (lit "ca") (lit "ac") 1 /\ returns TRANSPOSITION (lit "ac") (lit "abc") 1 /\
  returns TRANSPOSITION (lit "ca") (lit "abc") (1 + 2 * 1) /\
  edit_op TRANSPOSITION (lit "abcd") (lit "acbd") /\ returns TRANSPOSITION (lit "abcd") (lit "badc") 2 /\ returns TRANSPOSITION (lit "acbd") (lit "badc") 4 /\
  edit_op STANDARD (lit "kitten") (lit "kittten") /\ returns STANDARD (lit "kitten") (lit "sitting") 3 /\ returns STANDARD (lit "kittten") (lit "sitting") 4.
Proof.
  split; [apply returns_iff; vm_compute; reflexivity|]. split; [apply returns_iff; vm_compute; reflexivity|]. split; [apply returns_iff; vm_compute; reflexivity|].
  split; [exact (op_transpose _ (lit "a") (lit "d") "b"%char "c"%char eq_refl)|].
  split; [apply returns_iff; vm_compute; reflexivity|]. split; [apply returns_iff; vm_compute; reflexivity|].
  split; [exact (op_insert _ (lit "kitt") (lit "en") "t"%char)|]. split; apply returns_iff; vm_compute; reflexivity.
Qed.

(** ** Queries *)

(** What is found for one string is found for a string nearby, if the distance
    allowed is increased accordingly; the distances differ by no more than that. *)
Theorem C117_query : forall alg terms h d q q' e n results results',
  dictionary terms h d -> edit_distance alg q q' e ->
  within_limits terms q n -> within_limits terms q' (n + N.of_nat (e * slack alg)) ->
  yields as_candidate alg h d q n results -> yields as_candidate alg h d q' (n + N.of_nat (e * slack alg)) results' ->
  forall w k, In (w, k) results ->
  exists k', In (w, k') results' /\ (k' <= k + N.of_nat (e * slack alg))%N /\ (k <= k' + N.of_nat (e * slack alg))%N.
Proof.
  intros alg terms h d q q' e n r1 r2 D E L1 L2 Y1 Y2 w k I. apply edit_distance_dst in E. subst e.
  pose proof (yields_det _ _ _ _ _ _ _ _ _ Y1 (candidates_main _ _ _ _ _ _ D L1)) as ->.
  pose proof (yields_det _ _ _ _ _ _ _ _ _ Y2 (candidates_main _ _ _ _ _ _ D L2)) as ->.
  apply scored_In in I. destruct I as (I & E & Le). apply edit_distance_dst in E.
  pose proof (near_dst alg q q' w) as A. pose proof (near_dst alg q' q w) as B. rewrite (dst_sym alg q' q) in B.
  exists (N.of_nat (dst alg q' w)). split; [|lia]. apply scored_In. split; auto. rewrite Nnat.Nat2N.id.
  split; [now apply edit_distance_dst|lia].
Qed.
Print Assumptions C117_query.

(** So whoever asks once, with the distance increased, has all the answers for all
    strings nearby, in the order in which they come. *)
Theorem C117_ahead : forall alg terms h d q q' e n results results',
  dictionary terms h d -> edit_distance alg q q' e ->
  within_limits terms q' n -> within_limits terms q (n + N.of_nat (e * slack alg)) ->
  yields as_candidate alg h d q' n results' -> yields as_candidate alg h d q (n + N.of_nat (e * slack alg)) results ->
  exists keep, map fst results' = filter keep (map fst results).
Proof.
  intros alg terms h d q q' e n r1 r2 D E L1 L2 Y1 Y2. apply edit_distance_dst in E. subst e.
  pose proof (yields_det _ _ _ _ _ _ _ _ _ Y1 (candidates_main _ _ _ _ _ _ D L1)) as ->.
  pose proof (yields_det _ _ _ _ _ _ _ _ _ Y2 (candidates_main _ _ _ _ _ _ D L2)) as ->.
  exists (fun w => N.leb (N.of_nat (dst alg q' w)) n).
  assert (F : forall x m, map fst (scored alg terms x m) = found alg terms x m).
  { intros x m. unfold scored. rewrite map_map. cbn. apply map_id. }
  rewrite !F. apply sorted_same; [apply found_sorted|apply filter_sorted, found_sorted|].
  intros w. rewrite filter_In, !found_In, N.leb_le. pose proof (near_dst alg q' q w) as B. rewrite (dst_sym alg q' q) in B. split; [|tauto].
  intros (I & Le). repeat split; auto. lia.
Qed.
Print Assumptions C117_ahead.

(** A misspelled term is corrected by TRANSPOSITION too if all other terms are more
    than three times as far from it (twice is not enough, C113). *)
Theorem C117_corrects : forall terms h d w x e, dictionary terms h d -> In w terms ->
  within_limits terms x e -> (exists k, edit_distance TRANSPOSITION w x k /\ (N.of_nat k <= e)%N) ->
  (forall t k, In t terms -> t <> w -> edit_distance TRANSPOSITION w t k -> (3 * e < N.of_nat k)%N) ->
  exists k, yields as_candidate TRANSPOSITION h d x e [(w, k)].
Proof.
  intros terms h d w x e D I L (k & Ed & Le) Far. apply edit_distance_dst in Ed. subst k. set (alg := TRANSPOSITION) in *.
  exists (N.of_nat (dst alg x w)). pose proof (candidates_main alg _ _ _ _ _ D L) as Y.
  assert (E : found alg terms x e = [w]).
  { apply sorted_same; [apply found_sorted|repeat constructor|]. intros t. rewrite found_In. cbn [In]. split.
    - intros (It & Lt). destruct (list_eq_dec ascii_dec t w) as [->|N]; auto. exfalso.
      pose proof (Far t (dst alg w t) It N ltac:(now apply edit_distance_dst)). pose proof (near_dst alg x w t). cbn [slack alg] in *.
      rewrite (dst_sym alg x w) in *. lia.
    - intros [<-|[]]. split; auto. rewrite dst_sym. exact Le. }
  unfold scored in Y. rewrite E in Y. exact Y.
Qed.
Print Assumptions C117_corrects.

Example C117_query_case : exists h b,
  let terms := [lit "abc"; lit "word"] in
  runs_to (fun fuel => sorted_dawg fuel bump [] terms) (h, Some b) /\ dictionary terms h (b_dawg b) /\
  edit_distance TRANSPOSITION (lit "ac") (lit "ca") 1 /\
  within_limits terms (lit "ac") 1 /\ within_limits terms (lit "ca") (1 + N.of_nat (1 * slack TRANSPOSITION)) /\
  yields as_candidate TRANSPOSITION h (b_dawg b) (lit "ac") 1 [(lit "abc", 1%N)] /\
  yields as_candidate TRANSPOSITION h (b_dawg b) (lit "ca") 3 [(lit "abc", 3%N)] /\
  edit_distance TRANSPOSITION (lit "word") (lit "wodr") 1 /\
  (forall t k, In t terms -> t <> lit "word" -> edit_distance TRANSPOSITION (lit "word") t k -> (3 * 1 < N.of_nat k)%N) /\
  yields as_candidate TRANSPOSITION h (b_dawg b) (lit "wodr") 1 [(lit "word", 1%N)].
Proof.
  set (ts := [lit "abc"; lit "word"]).
  destruct (C12_sorted_dawg bump [] ts bump_allocator) as (h & r & R & As & _).
  assert (Asc : ascending ts) by (unfold ts, ascending; ascending_tac).
  destruct r as [b|]; [|exfalso; now apply As]. pose proof (dictionary_sorted _ _ _ _ _ bump_allocator R) as D.
  assert (L : forall q n, (N.of_nat (length q) <= 10)%N -> (n <= 10)%N -> within_limits ts q n).
  { intros q n Lq Ln. split; [apply manageable_short; unfold INT_MAX; lia|]. split; [unfold SIZE_MAX; lia|].
    intros t I. repeat (destruct I as [<-|I]; [reflexivity|]). destruct I. }
  exists h, b. cbv zeta. split; [exact R|]. split; [exact D|]. split; [now apply edit_distance_dst|].
  split; [apply L; cbn; lia|]. split; [apply L; cbn; lia|].
  split; [exact (candidates_main _ _ _ _ _ _ D (L (lit "ac") 1%N ltac:(cbn; lia) ltac:(lia)))|].
  split; [exact (candidates_main _ _ _ _ _ _ D (L (lit "ca") 3%N ltac:(cbn; lia) ltac:(lia)))|].
  split; [now apply edit_distance_dst|]. split.
  - intros t k [<-|[<-|[]]] N E; [|congruence]. apply edit_distance_dst in E. subst k. reflexivity.
  - exact (candidates_main _ _ _ _ _ _ D (L (lit "wodr") 1%N ltac:(cbn; lia) ltac:(lia))).
Qed.

(** * PropsBall: what a query costs, however large the dictionary is (C96). *)
From Coq Require Import Sorting.Sorted Sorting.Permutation.
From Verif Require Import Base Spec ModelTransducer ModelDawg ModelQuery ModelState ModelMemory SpecDawg SpecState SpecMemory
  SpecBounds SpecQuery SpecHold SpecBall AlignProofs TreeProofs HeapProofs IterProofs DawgProofs QueryProofs QueryFacts BoundProofs BallProofs PropsState PropsDawg PropsQuery
  PropsBounds PropsMemory PropsHold.
Local Open Scope nat_scope.

Lemma prefix_over : forall letters terms v u, written_with letters terms -> In (v ++ u) terms -> over letters v.
Proof. intros letters terms v u W I c J. apply (W _ c I). apply in_app_iff. left. exact J. Qed.

Lemma near_aligned : forall alg q w k n, edit_distance alg q w k -> (N.of_nat k <= n)%N -> aligned alg k q w /\ k <= N.to_nat n.
Proof. intros alg q w k n E L. apply edit_distance_dst in E. subst k. split; [apply dst_attained|lia]. Qed.

(** The number of results does not depend on the number of terms. *)
Theorem C96_results : forall alg terms h d q n letters results,
  dictionary terms h d -> within_limits terms q n -> written_with letters terms -> yields as_candidate alg h d q n results ->
  length results <= nearby alg (length letters) (length q) (N.to_nat n).
Proof.
  intros alg terms h d q n letters results D L W Y.
  destruct (C31_order alg terms h d q n results D L Y) as (_ & ND & _).
  destruct (ball alg letters (N.to_nat n) q) as (l & C & Le). rewrite <- (map_length fst results).
  etransitivity; [|exact Le]. apply NoDup_incl_length; [exact ND|]. intros w I.
  apply in_map_iff in I. destruct I as ([w' k] & <- & I). cbn [fst].
  pose proof (yields_det _ _ _ _ _ _ _ _ _ Y (candidates_main _ _ _ _ _ _ D L)) as ->. apply scored_In in I. destruct I as (I & E & Hk).
  destruct (near_aligned alg q w' (N.to_nat k) n E ltac:(rewrite N2Nat.id; exact Hk)) as (A & Hn).
  apply (C w' (N.to_nat k)); [|exact Hn|exact A]. intros c J. apply (W _ c I J).
Qed.
Print Assumptions C96_results.

Lemma worth_trying_few : forall alg terms q n letters, written_with letters terms ->
  exists prefixes, (forall w, worth_trying alg terms q n w -> In w prefixes) /\
    length prefixes <= length letters * (length q + 1) * nearby alg (length letters) (length q) (N.to_nat n).
Proof.
  intros alg terms q n letters W. destruct (balls alg letters (N.to_nat n) q) as (l & C & Le).
  exists (flat_map (fun c => map (fun v => v ++ [c]) l) letters). split.
  - intros w (v & c & u & z & k' & -> & I & E & Hk).
    destruct (near_aligned _ _ _ _ _ E Hk) as (A & Hn). apply in_flat_map. exists c. split.
    + apply (W _ c I). apply in_app_iff. left. apply in_app_iff. right. left. reflexivity.
    + apply in_map_iff. exists v. split; [reflexivity|]. apply (C v z k'); auto. eapply prefix_over; [exact W|]. rewrite <- app_assoc in I. exact I.
  - assert (Y : forall L, length (flat_map (fun c => map (fun v => v ++ [c]) l) L) = length L * length l).
    { intros L0. induction L0 as [|c L0 IH]; auto. cbn [flat_map length]. rewrite app_length, map_length, IH. lia. }
    rewrite Y, <- Nat.mul_assoc. apply Nat.mul_le_mono_l. exact Le.
Qed.

(** The number of state transitions does not depend on the number of terms. *)
Theorem C96_work : forall R (rt : result_type R) alg terms h d q n k letters log it,
  dictionary terms h d -> within_limits terms q n -> written_with letters terms -> works rt alg h d q n k log it ->
  length log <= length letters * (length q + 1) * nearby alg (length letters) (length q) (N.to_nat n).
Proof.
  intros R rt alg terms h d q n k letters log it D L W Wk.
  destruct (C65_work R rt alg terms h d q n k _ D L (candidates_main _ _ _ _ _ _ D L)) as (log' & it' & Wk' & _ & S & H).
  pose proof (runs_to_det _ _ _ _ Wk Wk') as E. injection E as <- <-.
  apply sorted_by_StronglySorted in S; [|exact shortlex_trans]. apply StronglySorted_NoDup in S; [|exact shortlex_irrefl].
  destruct (worth_trying_few alg terms q n letters W) as (l & C & Le). etransitivity; [|exact Le].
  apply NoDup_incl_length; auto. intros w I. apply C. now apply H in I.
Qed.
Print Assumptions C96_work.

(** Nor does what an iterator holds in memory. *)
Theorem C96_memory : forall R (rt : result_type R) alg terms h d al order base q n k letters,
  sound_allocators al -> dictionary terms h d -> within_limits terms q n -> written_with letters terms ->
  exists enough, forall fuel, enough <= fuel ->
  exists w1 t w2 it,
    make_transducer fuel al base (d_root d) = Ok (w1, t) /\
    run rt fuel al order h alg t (Open q n :: repeat (Increment 0) k) w1 [] = Ok (w2, [Some (q, n, k, it)]) /\
    exists intersections states positions,
      new_objects (w_int w1) (w_int w2) intersections /\ new_objects (w_st w1) (w_st w2) states /\
      new_objects (w_pos w1) (w_pos w2) positions /\
      let most := (length q + 1) * nearby alg (length letters) (length q) (N.to_nat n) in
      length intersections <= most /\ length states <= most /\
      (N.of_nat (length positions) <= N.of_nat most * match alg with STANDARD => (n + 1) ^ 2 | _ => (n + 1) ^ 2 + n ^ 2 end)%N.
Proof.
  intros R rt alg terms h d al order base q n k letters HA D L W.
  destruct (C92_memory R rt alg terms h d al order base q n k _ HA D L (candidates_main _ _ _ _ _ _ D L)) as (N & H).
  exists N. intros fuel Hf. destruct (H fuel Hf) as (w1 & t & w2 & it & E1 & E2 & _ & kept & is & sts & ps & S & K & N1 & L1 & N2 & L2 & N3 & L3).
  exists w1, t, w2, it. split; [exact E1|]. split; [exact E2|]. exists is, sts, ps. do 3 (split; [assumption|]). cbv zeta.
  destruct (balls alg letters (N.to_nat n) q) as (l & C & Le).
  assert (X : length kept <= (length q + 1) * nearby alg (length letters) (length q) (N.to_nat n)).
  { apply sorted_by_StronglySorted in S; [|exact shortlex_trans]. apply StronglySorted_NoDup in S; [|exact shortlex_irrefl].
    etransitivity; [|exact Le]. apply NoDup_incl_length; auto. intros w I. apply K in I. destruct I as ((_ & (u & I) & z & k' & E & Hk) & _).
    destruct (near_aligned _ _ _ _ _ E Hk) as (A & Hn). apply (C w z k'); auto. eapply prefix_over; eauto. }
  split; [lia|]. split; [lia|]. etransitivity; [exact L3|]. apply N.mul_le_mono_r. lia.
Qed.
Print Assumptions C96_memory.

(** "cat" with distance 1 and STANDARD over the three letters "a", "b", "c": at most
    29 results, however many terms there are, and at most 348 transitions. *)
Example C96_case : written_with (lit "abc") some_terms /\ dictionary some_terms example_heap example_dawg /\
  within_limits some_terms cat 1 /\ nearby STANDARD (length (lit "abc")) (length cat) (N.to_nat 1) = 29 /\
  exists log it, works as_string STANDARD example_heap example_dawg cat 1 1 log it /\ length log = 6.
Proof.
  split. { intros t c [<-|[<-|[<-|[<-|[]]]]] J; vm_compute in J; vm_compute; tauto. }
  split; [exact example_dictionary|]. split; [apply example_limits; discriminate|]. split; [vm_compute; reflexivity|].
  eexists _, _. split.
  - exists 30. intros fuel H. do 30 (destruct fuel as [|fuel]; [exfalso; lia|]). clear H. vm_compute. reflexivity.
  - reflexivity.
Qed.

(** * Properties C50-C52: the memory of transducers and queries. *)
From Coq Require Import Permutation.
From Verif Require Import Base Spec ModelTransducer ModelDawg ModelQuery ModelState ModelMemory.
From Verif Require Import SpecState SpecDawg SpecQuery SpecMemory PointerProofs MemoryProofs RunProofs QueryFacts.
From Verif Require Import PropsState PropsDawg PropsQuery HeapProofs BuildProofs2 DawgProofs.
Local Open Scope nat_scope.

(** What [stands_at] means for the results of the query. *)
Lemma stands_at_result {R} (rt : result_type R) alg terms h d q n k lit results :
  dictionary terms h d -> within_limits terms q n -> stands_at rt alg h d q n k lit ->
  yields rt alg h d q n results ->
  match nth_error results k with
  | Some c => q_complete lit = false /\ q_candidate lit = c
  | None => q_complete lit = true
  end.
Proof.
  intros D L St Y.
  pose proof (yields_det _ _ _ _ _ _ _ _ _ Y (query_all_main _ rt alg terms h d q n D L)) as ->.
  destruct (query_after_main _ rt alg terms h d q n k D L) as (lit' & St' & X).
  assert (lit = lit') as <- by (eapply runs_to_det; eauto).
  rewrite nth_error_map. destruct (nth_error (scored alg terms q n) k); cbn; tauto.
Qed.

(** ** C50: a transducer, any number of queries at a time

    Making a transducer; beginning queries, incrementing and destroying their
    iterators in any order; destroying what remains and finally the
    transducer: this terminates without undefined behaviour such as a double
    free.  At every moment every iterator shows the result that query has at
    this place.  The transducer's own objects are never changed.  When all
    iterators are destroyed, exactly what was allocated before they were made
    is allocated, and at the end exactly what was allocated before the
    transducer was made. *)
Theorem C50_memory : forall R (rt : result_type R) alg terms h d al order base commands,
  sound_allocators al -> dictionary terms h d ->
  (forall q n, In (Open q n) commands -> within_limits terms q n) ->
  exists enough, forall fuel, enough <= fuel ->
  exists w1 t w2 slots w3 w4,
    make_transducer fuel al base (d_root d) = Ok (w1, t) /\
    run rt fuel al order h alg t commands w1 [] = Ok (w2, slots) /\
    (forall i q n k it results,
       nth_error slots i = Some (Some (q, n, k, it)) -> yields rt alg h d q n results ->
       match nth_error results k with
       | Some c => l_complete it = false /\ l_candidate it = c
       | None => l_complete it = true
       end) /\
    preserved w1 w2 /\
    ((forall s, In s slots -> s = None) -> same_memory w2 w1) /\
    close_all fuel w2 slots = Ok w3 /\ same_memory w3 w1 /\
    destroy_transducer fuel w3 t = Ok w4 /\ same_memory w4 base.
Proof.
  intros R rt alg terms h d al order base cmds HA D HL.
  assert (Def : forall q n k, within_limits terms q n -> exists lit, stands_at rt alg h d q n k lit).
  { intros q n k L. destruct (query_after_main _ rt alg terms h d q n k D L) as (it & St & _). eauto. }
  destruct (@run_ok R rt terms h d alg Def cmds [] (Forall_nil _) HL) as (N & K & abs & HP & S).
  exists (N + K + 3). intros fuel Hf.
  destruct (@make_transducer_ok al base (d_root d) fuel HA ltac:(lia)) as (w1 & root & E1 & O1 & De & Ll).
  destruct (S al order fuel w1 root w1 [] 0 HA ltac:(lia) (owns_get O1 (or_introl eq_refl)) De)
    as (w2 & ss & E2 & es & -> & -> & HG & O2 & Bd).
  { exact (inv_start w1 root). }
  { lia. }
  destruct (@close_all_ok R fuel w1 root (Nat.max 0 K) es ltac:(lia) w2 HG O2 Bd) as (w3 & E3 & O3).
  pose proof (owns_trans O1 O3) as O4. cbn [app] in O4.
  destruct (@delete_own w3 base root [] fuel O4 ltac:(lia)) as (w4 & E4 & O5).
  exists w1, (o_ptr root), w2, (map (@e_slot R) es), w3, w4.
  split; [exact E1|]. split; [exact E2|]. split.
  { intros i q n k it results Hi Y. destruct (nth_map Hi) as (a & e & b & -> & _ & Es).
    rewrite Forall_forall in HG. specialize (HG e (in_elt _ _ _)). unfold good in HG. rewrite Es in HG.
    destruct (e_abs e) as [[[[q' n'] k'] lit]|] eqn:Ea; [|contradiction]. destruct HG as [Eq Rel].
    injection Eq as <- <- <-.
    assert (P : right_place rt terms h d alg (Some (q, n, k, lit))).
    { rewrite Forall_forall in HP. apply HP. rewrite <- Ea. apply in_map. apply in_elt. }
    destruct P as [Lq St]. pose proof (stands_at_result _ _ _ _ _ _ _ _ _ _ D Lq St Y) as X.
    rewrite (rel_complete Rel), (rel_candidate Rel). exact X. }
  split; [exact (owns_preserved O2)|]. split.
  { intros HN. apply owns_same. rewrite (owned_closed HG HN) in O2. exact O2. }
  split; [exact E3|]. split; [now apply owns_same|].
  split; [exact E4|]. now apply owns_same.
Qed.
Print Assumptions C50_memory.

(** Two queries on the dictionary {a, ab, cab, cb}, one of them begun before and
    destroyed after the other: the iterators show "cb" and nothing more. *)
Definition sound_bump : allocators := Allocators bump bump bump.
Example sound_allocators_bump : sound_allocators sound_bump.
Proof. split; [|split]; apply mallocator_bump. Qed.

Definition example_commands : list command :=
  [Open cat 2; Increment 0; Open cat 1; Increment 1; Increment 0; Close 1; Increment 7].
Definition no_objects : world := World [] [] [].
Definition nothing_left (w : world) : Prop :=
  in_use (w_pos w) = [] /\ in_use (w_st w) = [] /\ in_use (w_int w) = [].

Example C50_case : sound_allocators sound_bump /\ dictionary some_terms example_heap example_dawg /\
  (forall q n, In (Open q n) example_commands -> within_limits some_terms q n) /\
  exists w1 t w2 it w3,
    make_transducer 60 sound_bump no_objects (d_root example_dawg) = Ok (w1, t) /\
    run as_candidate 60 sound_bump left_first example_heap STANDARD t example_commands w1 [] =
      Ok (w2, [Some (cat, 2%N, 2, it); None]) /\
    l_candidate it = (scb, 2%N) /\ l_complete it = false /\ length (l_intersections it) = 5 /\
    close_all 60 w2 [Some (cat, 2%N, 2, it); None] = Ok w3 /\
    (exists w4, destroy_transducer 60 w3 t = Ok w4 /\ nothing_left w4).
Proof.
  split; [exact sound_allocators_bump|]. split; [exact example_dictionary|]. split.
  { intros q n H. repeat (destruct H as [H|H]; [injection H as <- <- || discriminate;
      apply example_limits; discriminate|]). destruct H. }
  eexists _, _, _, _, _. run. run. run. run. run. run. eexists. run. vm_compute. auto.
Qed.

(** ** C51: these objects must not be copied

    None of the classes declares a copy constructor or deletes the one the
    compiler provides, which copies the pointers.  Copying compiles, and then
    both destructors release the same objects: the second one is undefined
    behaviour. *)
Lemma gone w base os rest w' o : owns w base (os ++ rest) -> In o os -> owns w' base rest ->
  mread (w_int w') (o_ptr o) = UB.
Proof.
  intros (_ & _ & N & I & _) Ho (_ & _ & _ & I' & O' & _).
  unfold mread. destruct (o_ptr o =? null)%N; [reflexivity|].
  rewrite O'.
  - destruct (I (o_ptr o) (o_cell o)) as (_ & -> & _); [|reflexivity].
    apply (in_map (fun o => (o_ptr o, o_cell o))). apply in_or_app. now left.
  - apply in_split in Ho. destruct Ho as (a & b & ->). rewrite <- app_assoc in N. cbn [app] in N.
    rewrite map_app, map_app in N. cbn [map fst] in N. apply NoDup_remove_2 in N.
    intros Hin. apply N. rewrite in_app_iff. right. rewrite map_app, map_app, in_app_iff. now right.
Qed.

(** A copy of an iterator that has visited anything: destroying the original and
    then the copy. *)
Theorem C51_query_copy_refuted : forall R (rt : result_type R) alg terms h d al order base commands,
  sound_allocators al -> dictionary terms h d ->
  (forall q n, In (Open q n) commands -> within_limits terms q n) ->
  exists enough, forall fuel, enough <= fuel ->
  exists w1 t w2 slots,
    make_transducer fuel al base (d_root d) = Ok (w1, t) /\
    run rt fuel al order h alg t commands w1 [] = Ok (w2, slots) /\
    forall i q n k it copy, nth_error slots i = Some (Some (q, n, k, it)) -> copy = it ->
      l_intersections it <> [] ->
      exists w3, lazy_destroy fuel w2 it = Ok w3 /\ lazy_destroy fuel w3 copy = UB.
Proof.
  intros R rt alg terms h d al order base cmds HA D HL.
  assert (Def : forall q n k, within_limits terms q n -> exists lit, stands_at rt alg h d q n k lit).
  { intros q n k L. destruct (query_after_main _ rt alg terms h d q n k D L) as (it & St & _). eauto. }
  destruct (@run_ok R rt terms h d alg Def cmds [] (Forall_nil _) HL) as (N & K & abs & HP & S).
  exists (N + K + 3). intros fuel Hf.
  destruct (@make_transducer_ok al base (d_root d) fuel HA ltac:(lia)) as (w1 & root & E1 & O1 & De & Ll).
  destruct (S al order fuel w1 root w1 [] 0 HA ltac:(lia) (owns_get O1 (or_introl eq_refl)) De)
    as (w2 & ss & E2 & es & -> & -> & HG & O2 & Bd).
  { exact (inv_start w1 root). }
  { lia. }
  eexists _, _, _, _. split; [exact E1|]. split; [exact E2|].
  intros i q n k it copy Hi -> Hne. destruct (nth_map Hi) as (a & e & b & -> & _ & Es).
  rewrite Forall_forall in HG. specialize (HG e (in_elt _ _ _)). unfold good in HG. rewrite Es in HG.
  destruct (e_abs e) as [[[[q' n'] k'] lit]|] eqn:Ea; [|contradiction]. destruct HG as [Eq Rel].
  apply (owns_perm (@owned_middle _ _ _ _)) in O2.
  assert (Be : bounded (Nat.max 0 K) (e_own e)).
  { rewrite owned_app, owned_cons in Bd. rewrite !bounded_app in Bd. tauto. }
  destruct (@delete_owns w1 (owned (a ++ b)) (Nat.max 0 K) fuel (e_own e) ltac:(lia) w2 O2 Be)
    as (w3 & E3 & O3).
  exists w3. unfold lazy_destroy. rewrite (rel_owned Rel) in *. split; [exact E3|].
  destruct (e_own e) as [|o os]; [contradiction|]. cbn [map delete_intersections].
  pose proof (gone _ _ _ _ _ o O2 (or_introl eq_refl) O3) as G.
  unfold delete_intersection. destruct (N.eqb_spec (o_ptr o) null) as [E|_].
  - destruct (owns_get O2 (or_introl eq_refl)) as (X & _). contradiction.
  - rewrite G. reflexivity.
Qed.
Print Assumptions C51_query_copy_refuted.

Example C51_query_case :
  exists w1 t w2 it w3,
    make_transducer 60 sound_bump no_objects (d_root example_dawg) = Ok (w1, t) /\
    run as_candidate 60 sound_bump left_first example_heap STANDARD t [Open cat 2] w1 [] =
      Ok (w2, [Some (cat, 2%N, 0, it)]) /\
    l_intersections it = [2%N] /\
    lazy_destroy 60 w2 it = Ok w3 /\ lazy_destroy 60 w3 it = UB.
Proof. eexists _, _, _, _, _. run. run. run. run. vm_compute. reflexivity. Qed.

Theorem C51_transducer_copy_refuted : forall al base root, sound_allocators al ->
  exists enough, forall fuel, enough <= fuel -> exists w1 t w2 copy,
    make_transducer fuel al base root = Ok (w1, t) /\ copy = t /\
    destroy_transducer fuel w1 t = Ok w2 /\ destroy_transducer fuel w2 copy = UB.
Proof.
  intros al base n HA. exists 3. intros fuel Hf.
  destruct (@make_transducer_ok al base n fuel HA ltac:(lia)) as (w1 & root & E1 & O1 & De & Ll).
  destruct (@delete_own w1 base root [] fuel O1 ltac:(lia)) as (w2 & E2 & O2).
  exists w1, (o_ptr root), w2, (o_ptr root). split; [exact E1|]. split; [reflexivity|]. split; [exact E2|].
  pose proof (gone w1 base [root] [] w2 root O1 (or_introl eq_refl) O2) as G.
  unfold destroy_transducer, delete_intersection. destruct (N.eqb_spec (o_ptr root) null) as [E|_].
  - destruct (owns_get O1 (or_introl eq_refl)) as (X & _). contradiction.
  - rewrite G. reflexivity.
Qed.
Print Assumptions C51_transducer_copy_refuted.

Theorem C51_state_copy_refuted : forall m base head l fuel, has_state m base head l -> l <> [] ->
  length l < fuel ->
  exists m' copy, copy = head /\ destroy_state fuel m head = Ok m' /\ destroy_state fuel m' copy = UB.
Proof.
  intros m base head l fuel H Hl Hf. destruct (world_delete H Hf) as (m' & E & H').
  exists m', head. split; [reflexivity|]. split; [exact E|].
  destruct l as [|[a x] l]; [contradiction|]. destruct H as (Sg & _ & Fr & _). destruct H' as (_ & _ & _ & F & _).
  destruct (Sg _ _ _ (or_introl eq_refl)) as (-> & Na & _).
  assert (G : mget m' a = None). { rewrite F by (intros []). apply Fr. now left. }
  unfold destroy_state. destruct fuel as [|fuel]; [lia|]. cbn [delete_position].
  destruct (N.eqb_spec a null); [contradiction|]. unfold get_next, mread.
  destruct (N.eqb_spec a null); [contradiction|]. rewrite G. reflexivity.
Qed.
Print Assumptions C51_state_copy_refuted.

Theorem C51_dictionary_copy_refuted : forall alloc h0 terms h b, allocator alloc ->
  runs_to (fun fuel => sorted_dawg fuel alloc h0 terms) (h, Some b) ->
  exists h' copy, copy = b /\ runs_to (fun fuel => destroy fuel h b) h' /\
    runs_into_ub (fun fuel => destroy fuel h' copy).
Proof.
  intros alloc h0 ts h b A R. pose proof (C18_footprint _ _ _ _ _ (d_root (b_dawg b)) A R) as [Ft _].
  destruct (C18_sorted_dawg _ _ _ _ _ A R) as (h' & D & Sm).
  apply sorted_dawg_built in R; auto. destruct R as (_ & Bu & Wk).
  exists h', b. split; [reflexivity|]. split; [exact D|]. exists 1. intros fuel Hf.
  unfold destroy, clean_up. rewrite Wk. cbn [rbind b_dawg].
  unfold destroy_dawg, all_nodes. destruct fuel as [|fuel]; [lia|]. cbn [all_nodes_loop].
  destruct (Ft (reach_refl _ _)) as [_ Fr].
  assert (G : hget h' (d_root (b_dawg b)) = None).
  { rewrite Sm. unfold allocated in Fr. destruct (hget h0 (d_root (b_dawg b))); [exfalso; apply Fr; discriminate|reflexivity]. }
  unfold read. rewrite G. destruct (d_root (b_dawg b) =? null)%N; reflexivity.
Qed.
Print Assumptions C51_dictionary_copy_refuted.

Example C51_cases : sound_allocators sound_bump /\ allocator SpecDawg.bump /\
  runs_to (fun fuel => sorted_dawg fuel SpecDawg.bump [] some_terms) (example_heap, example_builder) /\
  example_builder <> None /\
  has_state [(1, Live (Cell (Pos 0 1 false) 2)); (2, Live (Cell (Pos 1 1 false) 0))]%N [] 1%N
    [(1, Pos 0 1 false); (2, Pos 1 1 false)]%N.
Proof.
  split; [exact sound_allocators_bump|]. split; [exact bump_allocator|]. split; [exact example_built|].
  split; [discriminate|]. split.
  { intros p l q [E|[]]. injection E as <- <- <-. cbn. split; [reflexivity|]. split; [discriminate|].
    eexists. split; [reflexivity|]. cbn. split; [reflexivity|]. split; [discriminate|].
    eexists. split; reflexivity. }
  split. { cbn. constructor; [cbn; intros [E|[]]; discriminate|]. constructor; [intros []|constructor]. }
  split; [reflexivity|]. split; [|intros a; unfold mconst; cbn [mlook]; destruct (a =? 1)%N, (a =? 2)%N; reflexivity].
  intros a Ha. cbn in Ha. unfold mget. cbn [mlook].
  destruct (N.eqb_spec a 1) as [->|_]; [tauto|]. destruct (N.eqb_spec a 2) as [->|_]; [tauto|]. reflexivity.
Qed.

(** ** C52: iterators may be destroyed after their transducer

    The destructor of an iterator does not look at the objects of the
    transducer: these may be gone already. *)
Theorem C52_transducer_first : forall R (rt : result_type R) alg terms h d al order base commands,
  sound_allocators al -> dictionary terms h d ->
  (forall q n, In (Open q n) commands -> within_limits terms q n) ->
  exists enough, forall fuel, enough <= fuel ->
  exists w1 t w2 slots w3 w4,
    make_transducer fuel al base (d_root d) = Ok (w1, t) /\
    run rt fuel al order h alg t commands w1 [] = Ok (w2, slots) /\
    destroy_transducer fuel w2 t = Ok w3 /\
    close_all fuel w3 slots = Ok w4 /\ same_memory w4 base.
Proof.
  intros R rt alg terms h d al order base cmds HA D HL.
  assert (Def : forall q n k, within_limits terms q n -> exists lit, stands_at rt alg h d q n k lit).
  { intros q n k L. destruct (query_after_main _ rt alg terms h d q n k D L) as (it & St & _). eauto. }
  destruct (@run_ok R rt terms h d alg Def cmds [] (Forall_nil _) HL) as (N & K & abs & HP & S).
  exists (N + K + 3). intros fuel Hf.
  destruct (@make_transducer_ok al base (d_root d) fuel HA ltac:(lia)) as (w1 & root & E1 & O1 & De & Ll).
  destruct (S al order fuel w1 root w1 [] 0 HA ltac:(lia) (owns_get O1 (or_introl eq_refl)) De)
    as (w2 & ss & E2 & es & -> & -> & HG & O2 & Bd).
  { exact (inv_start w1 root). }
  { lia. }
  assert (O2' : owns w2 base (root :: owned es)).
  { eapply owns_perm; [|exact (owns_trans O1 O2)]. apply Permutation_sym, Permutation_cons_append. }
  destruct (@delete_own w2 base root (owned es) fuel O2' ltac:(lia)) as (w3 & E3 & O3).
  destruct (@close_all_ok R fuel base root (Nat.max 0 K) es ltac:(lia) w3 HG O3 Bd) as (w4 & E4 & O4).
  exists w1, (o_ptr root), w2, (map (@e_slot R) es), w3, w4.
  repeat (split; [assumption|]). now apply owns_same.
Qed.
Print Assumptions C52_transducer_first.

(** Using it is another matter: once the transducer is gone no query can be
    begun, since its first intersection is read. *)
Theorem C52_begin_refuted : forall R (rt : result_type R) alg h al order base root q n, sound_allocators al ->
  exists enough, forall fuel, enough <= fuel -> exists w1 t w2,
    make_transducer fuel al base root = Ok (w1, t) /\
    destroy_transducer fuel w1 t = Ok w2 /\
    lazy_begin rt fuel al order h alg q n w2 t = UB.
Proof.
  intros R rt alg h al order base nd q n HA. exists 3. intros fuel Hf.
  destruct (@make_transducer_ok al base nd fuel HA ltac:(lia)) as (w1 & root & E1 & O1 & De & Ll).
  destruct (@delete_own w1 base root [] fuel O1 ltac:(lia)) as (w2 & E2 & O2).
  exists w1, (o_ptr root), w2. split; [exact E1|]. split; [exact E2|].
  unfold lazy_begin. rewrite (gone w1 base [root] [] w2 root O1 (or_introl eq_refl) O2). reflexivity.
Qed.
Print Assumptions C52_begin_refuted.

(** Nor can an iterator be incremented that still has something to do. *)
Example C52_case :
  exists w1 t w2 it w3 w4,
    make_transducer 60 sound_bump no_objects (d_root example_dawg) = Ok (w1, t) /\
    run as_candidate 60 sound_bump left_first example_heap STANDARD t example_commands w1 [] =
      Ok (w2, [Some (cat, 2%N, 2, it); None]) /\
    destroy_transducer 60 w2 t = Ok w3 /\
    lazy_advance as_candidate 60 sound_bump left_first example_heap STANDARD cat 2 w3 it = UB /\
    close_all 60 w3 [Some (cat, 2%N, 2, it); None] = Ok w4 /\ nothing_left w4.
Proof. eexists _, _, _, _, _, _. run. run. run. run. run. vm_compute. auto. Qed.

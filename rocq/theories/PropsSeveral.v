(** * C92 for any number of iterators at a time. *)
From Coq Require Import Sorting.Sorted Sorting.Permutation.
From Verif Require Import Base Spec SpecTransducer ModelTransducer ModelDawg ModelQuery ModelState ModelMemory SpecDawg SpecState SpecMemory
  SpecBounds SpecQuery SpecHold AlignProofs TransProofs StateProofs ReadProofs TreeProofs HeapProofs IterProofs DawgProofs QueryProofs QueryFacts BoundProofs
  PointerProofs MemoryProofs ThrowProofs RunProofs HoldProofs PropsState PropsDawg PropsQuery PropsBounds PropsMemory PropsHold SeveralProofs.
Local Open Scope nat_scope.

Lemma kept_spec R (rt : result_type R) alg terms h d q n k results log it :
  dictionary terms h d -> within_limits terms q n -> yields as_candidate alg h d q n results -> works rt alg h d q n k log it ->
  sorted_by shortlex_lt (filter (alive alg q n) log) /\
  forall w, In w (filter (alive alg q n) log) <-> worth_keeping alg terms q n w /\
    match nth_error results k with
    | Some (found, _) => w = found \/ shortlex_lt w found
    | None => True
    end.
Proof.
  intros D L Y Wk. destruct (C65_work R rt alg terms h d q n k results D L Y) as (log' & it' & Wk' & _ & So & Lg).
  pose proof (runs_to_det _ _ _ _ Wk Wk') as E. injection E as <- <-. pose proof L as (Lq & Ln & Lt).
  apply sorted_by_StronglySorted in So; [|exact shortlex_trans]. split.
  { apply StronglySorted_sorted_by. clear -So. induction So as [|a l S IH F]; cbn; [constructor|].
    destruct (alive alg q n a); auto. constructor; auto. rewrite Forall_forall in *. intros y I. apply filter_In in I. apply F, I. }
  intros w. rewrite filter_In, Lg. unfold worth_trying, worth_keeping. split.
  - intros ((( v & c & u & z & j & -> & I & Ed & Le) & Nx) & A). split; [|exact Nx].
    split; [intros X; destruct v; discriminate|]. split; [eauto|].
    apply alive_spec in A; auto.
    + destruct A as (y & A). eexists y, _. split; [apply edit_distance_dst; reflexivity|exact A].
    + specialize (Lt _ I). unfold small_depth. rewrite !app_length in *. cbn [length] in *. lia.
  - intros ((Ne & (u & I) & z & j & Ed & Le) & Nx). destruct (exists_last Ne) as (v & c & ->). split; [split; [|exact Nx]|].
    + exists v, c, u, ([c] ++ z), j. rewrite app_assoc. auto.
    + apply edit_distance_dst in Ed. apply alive_spec; auto; [|exists z; lia].
      specialize (Lt _ I). unfold small_depth. rewrite !app_length in *. cbn [length] in *. lia.
Qed.

(** What an abstract query keeps. *)
Definition keeps {R} (alg : algorithm) (a : abstract (R := R)) : list str :=
  match a with None => [] | Some (q, n, k, log, lit) => filter (alive alg q n) log end.

Lemma owned_keeps {R} terms h alg root (es : list (SeveralProofs.item (R := R))) : Forall (fine terms h alg root) es ->
  length (all_owned es) = length (concat (map (fun e => keeps alg (x_abs e)) es)).
Proof.
  intros F. induction F as [|e es G F IH]; auto. unfold all_owned in *. cbn [map concat]. rewrite !app_length, IH. f_equal.
  unfold fine in G. destruct (x_slot e) as [[[[? ?] ?] ?]|], (x_abs e) as [[[[[? ?] ?] ?] ?]|]; try contradiction.
  - destruct G as (E & _ & _ & _ & _ & G). injection E as <- <- <-. exact G.
  - now rewrite G.
Qed.

Lemma most_mono alg n m : n <= m -> most alg n <= most alg m.
Proof. intros L. unfold most. destruct alg; nia. Qed.

(** However many iterators there are, and in whatever order they have been made,
    incremented and destroyed: together they hold what each of them would hold alone,
    one Intersection and one State for each prefix that is worth keeping for it and
    does not come after its current result.  Iterators that have been destroyed hold
    nothing. *)
Theorem C92_several : forall R (rt : result_type R) alg terms h d al order base commands m,
  sound_allocators al -> dictionary terms h d ->
  (forall q n, In (Open q n) commands -> within_limits terms q n /\ (n <= m)%N) ->
  exists enough, forall fuel, enough <= fuel ->
  exists w1 t w2 slots,
    make_transducer fuel al base (d_root d) = Ok (w1, t) /\
    run rt fuel al order h alg t commands w1 [] = Ok (w2, slots) /\
    exists kept intersections states positions,
      length kept = length slots /\
      (forall i, nth_error slots i = Some None -> nth_error kept i = Some []) /\
      (forall i q n k it results,
         nth_error slots i = Some (Some (q, n, k, it)) -> yields as_candidate alg h d q n results ->
         exists l, nth_error kept i = Some l /\ sorted_by shortlex_lt l /\
           forall w, In w l <-> worth_keeping alg terms q n w /\
             match nth_error results k with
             | Some (found, _) => w = found \/ shortlex_lt w found
             | None => True
             end) /\
      new_objects (w_int w1) (w_int w2) intersections /\ length intersections = length (concat kept) /\
      new_objects (w_st w1) (w_st w2) states /\ length states = length (concat kept) /\
      new_objects (w_pos w1) (w_pos w2) positions /\
      (N.of_nat (length positions) <= N.of_nat (length (concat kept)) *
         match alg with STANDARD => (m + 1) ^ 2 | _ => (m + 1) ^ 2 + m ^ 2 end)%N.
Proof.
  intros R rt alg terms h d al order base commands m HA D HL.
  set (asked := fun q n => within_limits terms q n /\ (n <= m)%N).
  destruct (@run_together R rt terms h d alg D asked (fun q n (A : asked q n) => proj1 A) commands [] (Forall_nil _) HL) as (M & abs & HP & Ru).
  exists (M + 3). intros fuel Hf.
  destruct (@make_transducer_ok al base (d_root d) fuel HA ltac:(lia)) as (w1 & root & Em & O1 & De & Ll).
  pose proof (owns_get O1 (or_introl eq_refl)) as Rd.
  assert (T0 : together (R := R) terms h alg w1 root w1 [] []).
  { exists []. split; [reflexivity|]. split; [reflexivity|]. split; [constructor|]. apply owns_nil. repeat split; reflexivity. }
  destruct (Ru al order fuel w1 root w1 [] HA ltac:(lia) Rd De T0) as (w2 & ss & Er & es & -> & -> & HG & Ho).
  exists w1, (o_ptr root), w2, (map (@x_slot R) es). split; [exact Em|]. split; [exact Er|].
  exists (map (fun e => keeps alg (x_abs e)) es).
  set (os := all_owned es) in *.
  exists (map o_ptr os), (map (fun o => ic_state (o_cell o)) os), (addresses (map (fun o => (o_head o, o_pos o, null)) os)).
  split; [now rewrite !map_length|].
  split.
  { intros i Hi. destruct (nth_map Hi) as (a & e & b & -> & <- & E). apply Forall_app in HG. destruct HG as [_ HG].
    inversion HG as [|? ? G _]; subst. unfold fine in G. rewrite E in G. destruct (x_abs e) as [[[[[? ?] ?] ?] ?]|] eqn:Ea; [contradiction|].
    rewrite map_app, nth_error_app2; rewrite map_length; [|lia]. rewrite Nat.sub_diag. cbn. now rewrite Ea. }
  split.
  { intros i q n k it results Hi Y. destruct (nth_map Hi) as (a & e & b & -> & <- & E). apply Forall_app in HG. destruct HG as [_ HG].
    inversion HG as [|? ? G _]; subst. unfold fine in G. rewrite E in G. destruct (x_abs e) as [[[[[q' n'] k'] log] lit]|] eqn:Ea; [|contradiction].
    destruct G as (G & _). injection G as <- <- <-.
    assert (P : placed rt h d alg asked (Some (q, n, k, log, lit))).
    { rewrite Forall_forall in HP. apply HP. rewrite <- Ea. apply in_map. apply in_elt. }
    destruct P as [[Lq _] Wk]. exists (filter (alive alg q n) log). split.
    - rewrite map_app, nth_error_app2; rewrite map_length; [|lia]. rewrite Nat.sub_diag. cbn. now rewrite Ea.
    - eapply kept_spec; eauto. }
  pose proof (owned_keeps _ _ _ _ _ HG) as Len. fold os in Len. destruct Ho as (H1 & H2 & H3).
  split. { pose proof (adds_new _ _ _ H3) as X. rewrite map_map in X. exact X. }
  split; [now rewrite map_length|].
  split. { pose proof (adds_new _ _ _ H2) as X. rewrite map_map in X. exact X. }
  split; [now rewrite map_length|].
  split; [exact (consists_new _ _ _ H1)|].
  assert (Bd : bounded (most alg (N.to_nat m)) os). 2: {
    pose proof (addresses_length _ os Bd) as X. rewrite Len in X. set (c := length (concat _)) in *.
    apply N.le_trans with (N.of_nat (c * most alg (N.to_nat m))); [lia|]. rewrite Nat2N.inj_mul. apply N.mul_le_mono_l.
    unfold most. destruct alg; rewrite !N.pow_2_r; lia. }
  intros o Io. unfold os, all_owned in Io. apply in_concat in Io. destruct Io as (l & Il & Io). apply in_map_iff in Il. destruct Il as (e & <- & Ie).
  rewrite Forall_forall in HG. specialize (HG e Ie). unfold fine in HG.
  destruct (x_slot e) as [[[[q n] k] it]|], (x_abs e) as [[[[[q' n'] k'] log] lit]|] eqn:Ea; try contradiction.
  - destruct HG as (G & _ & _ & _ & Bd & _). injection G as <- <- <-.
    assert (P : placed rt h d alg asked (Some (q, n, k, log, lit))).
    { rewrite Forall_forall in HP. apply HP. rewrite <- Ea. now apply in_map. }
    destruct P as [[_ Le] _]. specialize (Bd o Io). pose proof (most_mono alg (N.to_nat n) (N.to_nat m) ltac:(lia)). lia.
  - rewrite HG in Io. destruct Io.
Qed.
Print Assumptions C92_several.

(** Two iterators over the results for "cat" in {a, ab, cab, cb}, one with distance 2 that
    stands at "cb", one with distance 1 that is at its end: 5 + 5 Intersections.  When the
    second is destroyed, five are left. *)
Definition two_iterators : list command := [Open cat 2; Open cat 1; Increment 0; Increment 1; Increment 0].

Example C92_several_case :
  (forall q n, In (Open q n) two_iterators -> within_limits some_terms q n /\ (n <= 2)%N) /\
  exists w1 t w2 slots w3 slots',
  make_transducer 60 sound_bump no_objects (d_root example_dawg) = Ok (w1, t) /\
  run as_candidate 60 sound_bump left_first example_heap STANDARD t two_iterators w1 [] = Ok (w2, slots) /\
  length (in_use (w_int w2)) = length (in_use (w_int w1)) + 10 /\
  run as_candidate 60 sound_bump left_first example_heap STANDARD t [Close 1] w2 slots = Ok (w3, slots') /\
  length (in_use (w_int w3)) = length (in_use (w_int w1)) + 5.
Proof.
  split.
  { intros q n I. repeat (destruct I as [I|I]; [first [discriminate|injection I as <- <-; split; [apply example_limits; discriminate|discriminate]]|]). destruct I. }
  eexists _, _, _, _, _, _. run. run. run. run. vm_compute. reflexivity.
Qed.

(** * C92: what a query and an iterator over a dictionary hold in memory. *)
From Coq Require Import Sorting.Sorted Sorting.Permutation.
From Verif Require Import Base Spec SpecTransducer ModelTransducer ModelDawg ModelQuery ModelState ModelMemory SpecDawg SpecState SpecMemory
  SpecBounds SpecQuery SpecHold AlignProofs TransProofs StateProofs ReadProofs TreeProofs HeapProofs IterProofs QueryProofs QueryFacts BoundProofs
  PointerProofs MemoryProofs ThrowProofs HoldProofs PropsState PropsDawg PropsQuery PropsBounds PropsMemory
  ModelIterator SpecIterator IteratorProofs IterHoldProofs.
Local Open Scope nat_scope.

Lemma adds_new {A} (m base : mem A) l : adds m base l -> new_objects base m (map fst l).
Proof.
  intros (N & I & O & _). split; [exact N|]. intros p. split.
  - intros Hp. apply in_map_iff in Hp. destruct Hp as ([p' x] & <- & Hp). destruct (I _ _ Hp) as (_ & G1 & G2).
    cbn [fst]. rewrite G2. split; [exact G1|discriminate].
  - intros [G1 G2]. destruct (in_dec N.eq_dec p (map fst l)) as [|X]; auto. rewrite (O _ X) in G2. contradiction.
Qed.

Lemma segment_in m l q : forall p, segment m p l q -> forall a, In a (map fst l) -> mget m a <> None.
Proof.
  induction l as [|[b y] l IH]; intros p Sg a Ha; [destruct Ha|]. cbn in Sg. destruct Sg as (-> & _ & nx & G & Sg).
  destruct Ha as [<-|Ha]; [cbn [fst]; congruence|eapply IH; eauto].
Qed.

Lemma consists_new m base cs : consists_of m base cs -> new_objects base m (addresses cs).
Proof.
  intros (Sg & N & F & O & _). split; [exact N|]. intros a. split.
  - intros Ha. split; [now apply F|]. unfold addresses in Ha. apply in_flat_map in Ha. destruct Ha as ([[p l] q] & Hc & Ha).
    cbn [fst snd] in Ha. eapply segment_in; [apply Sg; exact Hc|exact Ha].
  - intros [G1 G2]. destruct (in_dec N.eq_dec a (addresses cs)) as [|X]; auto. rewrite (O _ X) in G2. contradiction.
Qed.

Lemma addresses_length S os : bounded S os ->
  length (addresses (map (fun o => (o_head o, o_pos o, null)) os)) <= length os * S.
Proof.
  induction os as [|o os IH]; intros Bd; [cbn; lia|]. cbn [map addresses flat_map fst snd length].
  rewrite app_length, map_length. specialize (IH (fun o' H => Bd o' (or_intror H))). unfold addresses in IH.
  pose proof (Bd o (or_introl eq_refl)). lia.
Qed.

Section Increments.
  Context {R : Type} (rt : result_type R).
  Variables (h : heap) (alg : algorithm) (x : str) (n : N) (B S : nat).
  Hypothesis Hx : manageable x n.
  Hypothesis Hn : (n <= SIZE_MAX)%N.
  Hypothesis HB : small_depth B.
  Hypothesis HS : most alg (N.to_nat n) <= S.
  Variables (al : allocators) (order : positions -> ptr -> bool) (fuel : nat) (base : world) (root : own) (t : ptr).
  Hypothesis HA : sound_allocators al.
  Hypothesis Hf : 6 * S + B + 10 <= fuel.
  Hypothesis Hr : readable base root.

  Lemma held_increments : forall k j w it q count log q', held h alg x n B S base root [] w it q count ->
    log_increments rt h alg x n fuel k q = Ok (log, q') ->
    exists w' it', run rt fuel al order h alg t (repeat (Increment 0) k) w [Some (x, n, j, it)] = Ok (w', [Some (x, n, j + k, it')]) /\
      held h alg x n B S base root [] w' it' q' (count + length (filter (alive alg x n) log)).
  Proof.
    induction k as [|k IH]; intros j w it q count log q' Hh E; cbn [log_increments repeat run] in *.
    - injection E as <- <-. exists w, it. rewrite Nat.add_0_r. cbn. rewrite Nat.add_0_r. auto.
    - destruct (log_advance rt h alg x n fuel q) as [[log1 q1]| |] eqn:E1; try discriminate. cbn [rbind] in E.
      destruct (log_increments rt h alg x n fuel k q1) as [[log2 q2]| |] eqn:E2; try discriminate. cbn [rbind] in E. injection E as <- <-.
      destruct (held_advance Hx Hn HB HS order HA Hf Hr Hh E1 (le_n _)) as (w1 & it1 & El & Hh1).
      cbn [run_one nth_error]. rewrite El. cbn [rbind put].
      destruct (IH (Datatypes.S j) w1 it1 q1 _ log2 q2 Hh1 E2) as (w2 & it2 & Er & Hh2).
      exists w2, it2. rewrite Nat.add_succ_r. split; [exact Er|]. rewrite filter_app, app_length, Nat.add_assoc. exact Hh2.
  Qed.
End Increments.

(** An iterator that has been incremented [k] times holds one Intersection and one
    State for each prefix that is worth keeping and does not come after the
    current result, and at most (n+1)^2, or (n+1)^2 + n^2, positions for each of
    them.  It holds nothing else, however long the query and the terms are. *)
Theorem C92_memory : forall R (rt : result_type R) alg terms h d al order base q n k results,
  sound_allocators al -> dictionary terms h d -> within_limits terms q n -> yields as_candidate alg h d q n results ->
  exists enough, forall fuel, enough <= fuel ->
  exists w1 t w2 it,
    make_transducer fuel al base (d_root d) = Ok (w1, t) /\
    run rt fuel al order h alg t (Open q n :: repeat (Increment 0) k) w1 [] = Ok (w2, [Some (q, n, k, it)]) /\
    preserved w1 w2 /\
    exists kept intersections states positions,
      sorted_by shortlex_lt kept /\
      (forall w, In w kept <-> worth_keeping alg terms q n w /\
         match nth_error results k with
         | Some (found, _) => w = found \/ shortlex_lt w found
         | None => True
         end) /\
      new_objects (w_int w1) (w_int w2) intersections /\ length intersections = length kept /\
      new_objects (w_st w1) (w_st w2) states /\ length states = length kept /\
      new_objects (w_pos w1) (w_pos w2) positions /\
      (N.of_nat (length positions) <= N.of_nat (length kept) *
         match alg with STANDARD => (n + 1) ^ 2 | _ => (n + 1) ^ 2 + n ^ 2 end)%N.
Proof.
  intros R rt alg terms h d al order base q n k results HA D L Y.
  destruct (C65_work R rt alg terms h d q n k results D L Y) as (log & it0 & Wk & _ & So & Lg).
  destruct (dictionary_unf _ _ _ D) as (U & _). destruct (small_terms _ _ _ L) as (B & SB & HB).
  pose proof L as (Lq & Ln & Lt). destruct Wk as (M & Wk). set (S := most alg (N.to_nat n)).
  exists (M + (6 * S + B + 10) + 3). intros fuel Hf.
  specialize (Wk fuel ltac:(lia)). unfold log_after in Wk. cbn [new_transducer tr_alg tr_root] in Wk.
  destruct (log_new rt h alg q n fuel (RootI (d_root d) initial_state)) as [[log1 q1]| |] eqn:E1.
  2: { unfold initial_state in E1. rewrite E1 in Wk. discriminate. }
  2: { unfold initial_state in E1. rewrite E1 in Wk. discriminate. }
  assert (E1' := E1). unfold initial_state in E1'. rewrite E1' in Wk. cbn [rbind] in Wk. clear E1'.
  destruct (log_increments rt h alg q n fuel k q1) as [[log2 q2]| |] eqn:E2; try discriminate. cbn [rbind] in Wk. injection Wk as <- <-.
  destruct (@make_transducer_ok al base (d_root d) fuel HA ltac:(lia)) as (w1 & root & Em & O1 & De & Ll).
  pose proof (owns_get O1 (or_introl eq_refl)) as Rd.
  assert (O0 : owns w1 w1 []). { apply owns_nil. repeat split; reflexivity. }
  destruct (@held_begin R rt h alg q n B S Lq Ln SB (le_n _) al order fuel w1 root [] HA ltac:(lia) Rd (d_root d) (trie terms) U HB De
    fuel w1 log1 q1 O0 E1 (le_n _)) as (w2 & it2 & Eb & Hh).
  destruct (@held_increments R rt h alg q n B S Lq Ln SB (le_n _) al order fuel w1 root (o_ptr root) HA ltac:(lia) Rd
    k 0 w2 it2 q1 _ log2 q2 Hh E2) as (w3 & it3 & Er & Hh3).
  exists w1, (o_ptr root), w3, it3. split; [exact Em|]. split.
  { cbn [run run_one]. rewrite Eb. cbn [rbind app]. exact Er. }
  destruct Hh3 as (_ & _ & os & Ho & _ & Bd & Len). rewrite app_nil_r in Ho.
  split; [exact (owns_preserved Ho)|].
  rewrite <- app_length, <- filter_app in Len. set (kept := filter (alive alg q n) (log1 ++ log2)) in *.
  exists kept, (map o_ptr os), (map (fun o => ic_state (o_cell o)) os), (addresses (map (fun o => (o_head o, o_pos o, null)) os)).
  apply sorted_by_StronglySorted in So; [|exact shortlex_trans].
  split.
  { apply StronglySorted_sorted_by. unfold kept. clear -So. induction So as [|a l S IH F]; cbn; [constructor|].
    destruct (alive alg q n a); auto. constructor; auto. rewrite Forall_forall in *. intros y I. apply filter_In in I. apply F, I. }
  split.
  { intros w. unfold kept. rewrite filter_In, Lg. unfold worth_trying, worth_keeping. split.
    - intros ((( v & c & u & z & j & -> & I & Ed & Le) & Nx) & A). split; [|exact Nx].
      split; [intros X; destruct v; discriminate|]. split; [eauto|].
      apply alive_spec in A; auto.
      + destruct A as (y & A). eexists y, _. split; [apply edit_distance_dst; reflexivity|exact A].
      + specialize (Lt _ I). unfold small_depth. rewrite !app_length in *. cbn [length] in *. lia.
    - intros ((Ne & (u & I) & z & j & Ed & Le) & Nx). destruct (exists_last Ne) as (v & c & ->). split; [split; [|exact Nx]|].
      + exists v, c, u, ([c] ++ z), j. rewrite app_assoc. auto.
      + apply edit_distance_dst in Ed. apply alive_spec; auto; [|exists z; lia].
        specialize (Lt _ I). unfold small_depth. rewrite !app_length in *. cbn [length] in *. lia. }
  destruct Ho as (H1 & H2 & H3).
  split. { pose proof (adds_new _ _ _ H3) as X. rewrite map_map in X. exact X. }
  split; [now rewrite map_length|].
  split. { pose proof (adds_new _ _ _ H2) as X. rewrite map_map in X. exact X. }
  split; [now rewrite map_length|].
  split; [exact (consists_new _ _ _ H1)|].
  pose proof (addresses_length S os Bd) as X. rewrite Len in X.
  apply N.le_trans with (N.of_nat (length kept * S)); [lia|]. rewrite Nat2N.inj_mul. apply N.mul_le_mono_l.
  unfold S, most. destruct alg; rewrite !N.pow_2_r; lia.
Qed.
Print Assumptions C92_memory.

(** The query "cat" with distance 2 on {a, ab, cab, cb}: when it stands at "cb" it
    holds what belongs to "a", "c", "ab", "ca" and "cb"; at the end "cab", too. *)
Example C92_case : exists w1 t w2 it2 w3 it3,
  make_transducer 60 sound_bump no_objects (d_root example_dawg) = Ok (w1, t) /\
  run as_candidate 60 sound_bump left_first example_heap STANDARD t (Open cat 2 :: repeat (Increment 0) 2) w1 [] =
    Ok (w2, [Some (cat, 2%N, 2, it2)]) /\ l_candidate it2 = (scb, 2%N) /\
  length (in_use (w_int w2)) = length (in_use (w_int w1)) + 5 /\ length (in_use (w_st w2)) = length (in_use (w_st w1)) + 5 /\
  run as_candidate 60 sound_bump left_first example_heap STANDARD t (Open cat 2 :: repeat (Increment 0) 5) w1 [] =
    Ok (w3, [Some (cat, 2%N, 5, it3)]) /\ l_complete it3 = true /\
  length (in_use (w_int w3)) = length (in_use (w_int w1)) + 6 /\
  length (in_use (w_pos w1)) = 1 /\ length (in_use (w_pos w3)) = 14.
Proof. eexists _, _, _, _, _, _. run. run. vm_compute. repeat (split; [reflexivity|]). reflexivity. Qed.

(** An iterator over a dictionary that has been incremented [k] times holds one
    Prefix for the empty prefix and one for each prefix of a term that extends by
    one character a prefix not after the current term; in the end it holds one for
    each prefix of each term. *)
Theorem C92_iterator : forall alloc terms h d base k, mallocator alloc -> dictionary terms h d ->
  exists listed, (forall w, In w listed <-> In w terms) /\ sorted_by shortlex_lt listed /\
  exists enough, forall fuel, enough <= fuel ->
  exists m it kept objects,
    iterations fuel alloc h d (Begin :: repeat (Next 0) k) base [] = Ok (m, [Some (k, it)]) /\
    NoDup kept /\
    (forall w, In w kept <-> w = [] \/ exists v c, w = v ++ [c] /\ (exists u, In (w ++ u) terms) /\
       match nth_error listed k with
       | Some shown => v = shown \/ shortlex_lt v shown
       | None => True
       end) /\
    new_objects base m objects /\ length objects = length kept.
Proof.
  intros alloc terms h d base k HA D. destruct (dictionary_unf _ _ _ D) as (U & _ & _).
  pose proof (trie_sorted terms) as TS. set (t := trie terms) in *.
  exists (words t). split; [intros w; rewrite words_In by auto; apply tin_trie|].
  split; [apply StronglySorted_sorted_by, words_sorted; auto|].
  exists (tsize t + 1). intros fuel Hf.
  destruct (iholds_begin HA U (adds_nil (alike_refl base)) (fuel := fuel)) as (m0 & os0 & it0 & q0 & E0 & Ha0 & I0); [lia|].
  rewrite app_nil_r in Ha0.
  destruct (iholds_iterations HA U ltac:(lia) k Ha0 I0 (fuel := fuel)) as (m & os & it & q & E & Ha & I).
  destruct I as (_ & Eq & P & Po & Lo & Sh). cbn [Nat.add] in *.
  exists m, it, (P ++ map fst q), (map fst os).
  split. { cbn [iterations iteration_step]. rewrite E0. cbn [rbind app]. exact E. }
  assert (Sq : qsorted [([], t)]) by (repeat constructor; auto).
  assert (Sb : StronglySorted before [([], t)]) by (repeat constructor).
  split; [exact (pops_nodup Po Sq Sb)|].
  split; [|split; [exact (adds_new _ _ _ Ha)|now rewrite map_length, app_length, map_length]].
  assert (Fl : forall w, In w (enum (fullq [([], t)])) <-> w = [] \/ exists u, In (w ++ u) terms).
  { intros w. change (enum (fullq [([], t)])) with (words (full t)). rewrite words_In by (apply full_sorted; auto).
    destruct w as [|c w]; [split; [auto|]; destruct t; reflexivity|]. unfold t. rewrite tin_full_trie. split; [auto|].
    intros [X|X]; [discriminate|exact X]. }
  intros w. rewrite (pops_in Po Sq Sb). cbn [map fst In].
  assert (V : forall v, In v P <-> In v (enum (fullq [([], t)])) /\
    match nth_error (words t) k with Some shown => v = shown \/ shortlex_lt v shown | None => True end).
  { intros v. destruct (nth_error (words t) k) as [s|].
    - destruct Sh as (P' & ->). apply (pops_upto Po Sq Sb).
    - subst q. rewrite (pops_enum Po). cbn [fullq map]. rewrite enum_nil, app_nil_r. tauto. }
  split.
  - intros [[<-|[]]|(v & c & -> & I1 & I2)]; [auto|]. right. exists v, c. split; [reflexivity|]. apply V in I1. apply Fl in I2.
    split; [destruct I2 as [X|X]; [destruct v; discriminate|exact X]|apply I1].
  - intros [->|(v & c & -> & (u & I1) & I2)]; [auto|]. right. exists v, c. split; [reflexivity|]. split.
    + apply V. split; [|exact I2]. apply Fl. right. exists ([c] ++ u). now rewrite app_assoc.
    + apply Fl. right. eauto.
Qed.
Print Assumptions C92_iterator.

(** {a, ab, cab, cb}: at "a" the iterator holds "", "a", "c" and "ab"; in the end all
    seven prefixes. *)
Example C92_iterator_case : exists m it m' it',
  iterations 30 bump example_heap example_dawg [Begin] [] [] = Ok (m, [Some (0, it)]) /\ di_value it = sa /\
  length (in_use m) = 4 /\
  iterations 30 bump example_heap example_dawg (Begin :: repeat (Next 0) 4) [] [] = Ok (m', [Some (4, it')]) /\
  length (in_use m') = 7.
Proof. eexists _, _, _, _. run. run. run. run. vm_compute. reflexivity. Qed.

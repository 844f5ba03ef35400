(** * Properties C12-C23: building, reading and destroying dictionaries. *)
From Verif Require Import Base Spec ModelDistance ModelHash ModelDawg SpecDawg TreeProofs
  HeapProofs BuildProofs BuildProofs2 IterProofs DawgProofs DistProofs HashFacts.
Local Open Scope nat_scope.

Lemma bump_fresh : forall h x, (fold_right N.max 0 (map fst h) < x)%N -> hget h x = None.
Proof.
  induction h as [|[q n] h IH]; intros x H; auto.
  cbn [map fst fold_right] in H.
  change (hget ((q, n) :: h) x) with (if N.eqb x q then n else hget h x).
  apply N.max_lub_lt_iff in H. destruct H as [H1 H2].
  destruct (N.eqb_spec x q) as [->|Nq]; [|auto]. exfalso. eapply N.lt_irrefl; eauto.
Qed.

(** There are allocators. *)
Lemma bump_allocator : allocator bump.
Proof. intros h. unfold bump, null. split; [lia|]. apply bump_fresh. rewrite N.add_1_l. apply N.lt_succ_diag_r. Qed.

Lemma lifo_allocator : allocator lifo.
Proof.
  intros h. unfold lifo. destruct (find _ _) as [p|] eqn:E; [|apply bump_allocator].
  apply find_some in E. destruct E as (_ & E). apply andb_prop in E. destruct E as (E & F).
  apply negb_true_iff, N.eqb_neq in E. split; auto. destruct (hget h p); [discriminate|reflexivity].
Qed.

Definition sa := lit "a".
Definition sab := lit "ab".
Definition sb := lit "b".
Definition sbb := lit "bb".
Definition scab := lit "cab".
Definition scb := lit "cb".

Ltac ascending_tac := repeat (constructor; [unfold lex_le; first [left; reflexivity | right; repeat first [apply lex_nil | apply lex_tail | apply lex_head; vm_compute; reflexivity]]|]); constructor.
(** Runs the model in the first part of a conjunction. *)
Ltac run := split; [vm_compute; reflexivity|].

Ltac strict_tac := repeat (constructor; [repeat first [apply lex_nil | apply lex_tail | apply lex_head; vm_compute; reflexivity]|]); constructor.

Definition some_terms := [sa; sab; scab; scb].
Example some_terms_ascending : ascending some_terms.
Proof. unfold some_terms, ascending. ascending_tac. Qed.
Example some_terms_strictly : strictly_ascending some_terms.
Proof. unfold some_terms, strictly_ascending. strict_tac. Qed.

(** ** C12: sorted_dawg succeeds exactly on sorted input, without undefined
    behaviour and with any allocator, whatever else is in memory; a failure
    leaves memory as it was. *)
Theorem C12_sorted_dawg : forall alloc h0 terms, allocator alloc ->
  exists h r, runs_to (fun fuel => sorted_dawg fuel alloc h0 terms) (h, r) /\
    (r <> None <-> ascending terms) /\
    (r = None -> same_heap h h0).
Proof.
  intros alloc h0 ts A. destruct (ascending_dec ts) as [As|As].
  - destruct (sorted_dawg_ok alloc h0 ts A As) as (h & b & R & _).
    exists h, (Some b). split; auto. split; [split; [auto|congruence] | discriminate].
  - destruct (sorted_dawg_fail alloc h0 ts A As) as (h & R & S).
    exists h, None. split; auto. split; [split; congruence | auto].
Qed.
Print Assumptions C12_sorted_dawg.

Example C12_case_ok : exists h b, sorted_dawg 20 bump [] [sa; sab; scab; scb; scb] = Ok (h, Some b).
Proof. eexists _, _. vm_compute. reflexivity. Qed.
Example C12_case_fail : exists h, sorted_dawg 20 bump [] [sab; sb; sa; scb] = Ok (h, None).
Proof. eexists. vm_compute. reflexivity. Qed.

(** ** C13: contains answers true exactly for the given terms. *)
Theorem C13_contains : forall alloc h0 terms h b w, allocator alloc ->
  runs_to (fun fuel => sorted_dawg fuel alloc h0 terms) (h, Some b) ->
  (N.of_nat (length w) <= INT_MAX)%N ->
  exists answer, contains h (b_dawg b) w = Ok answer /\ (answer = true <-> In w terms).
Proof.
  intros alloc h0 ts h b w A R L. apply sorted_dawg_built in R; auto. destruct R as (_ & Bu & _).
  exists (tin (trie ts) w). split.
  - apply contains_ok; auto. apply Bu.
  - apply tin_trie.
Qed.
Print Assumptions C13_contains.

Example C13_case : exists h b, runs_to (fun fuel => sorted_dawg fuel bump [] some_terms) (h, Some b) /\
  contains h (b_dawg b) scab = Ok true /\ contains h (b_dawg b) sb = Ok false.
Proof.
  destruct (sorted_dawg_ok bump [] some_terms bump_allocator some_terms_ascending) as (h & b & R & _).
  exists h, b. split; auto. split.
  - destruct (C13_contains _ _ _ _ _ scab bump_allocator R) as ([|] & E & I); [vm_compute; discriminate|auto|].
    exfalso. enough (false = true) by discriminate. apply I. vm_compute; auto.
  - destruct (C13_contains _ _ _ _ _ sb bump_allocator R) as ([|] & E & I); [vm_compute; discriminate| |auto].
    exfalso. destruct I as [I _]. specialize (I eq_refl). vm_compute in I. intuition discriminate.
Qed.

(** ** C14: size() counts the add calls (modulo 2^64, as a size_t does). *)
Lemma nodup_length : forall (l : list str), length (nodup (list_eq_dec Ascii.ascii_dec) l) = length l <-> NoDup l.
Proof.
  intros l. split.
  - induction l as [|a l IH]; intros H; [constructor|]. cbn in H.
    pose proof (NoDup_incl_length (NoDup_nodup (list_eq_dec Ascii.ascii_dec) l)
      (fun x I => proj1 (nodup_In (list_eq_dec Ascii.ascii_dec) l x) I)) as L.
    destruct (in_dec (list_eq_dec Ascii.ascii_dec) a l); cbn in H; [lia|].
    constructor; auto.
  - intros N. rewrite nodup_fixed_point; auto.
Qed.

Theorem C14_size : forall alloc h0 terms h b, allocator alloc ->
  runs_to (fun fuel => sorted_dawg fuel alloc h0 terms) (h, Some b) ->
  d_size (b_dawg b) = (N.of_nat (length terms) mod 2 ^ 64)%N /\
  ((N.of_nat (length terms) < 2 ^ 64)%N ->
     d_size (b_dawg b) = N.of_nat (length terms) /\
     (d_size (b_dawg b) = N.of_nat (length (nodup (list_eq_dec Ascii.ascii_dec) terms)) <-> NoDup terms)).
Proof.
  intros alloc h0 ts h b A R. apply sorted_dawg_built in R; auto. destruct R as (_ & Bu & _).
  pose proof (bu_size _ _ _ _ Bu) as S. split; [exact S|]. intros L.
  assert (d_size (b_dawg b) = N.of_nat (length ts)) as E.
  { rewrite S. apply N.mod_small. exact L. }
  split; auto. rewrite E, <- nodup_length. split; intros X; [apply Nnat.Nat2N.inj in X; auto | congruence].
Qed.
Print Assumptions C14_size.

Example C14_case : exists h b, sorted_dawg 20 bump [] [sa; sab; scab; scb; scb] = Ok (h, Some b) /\ d_size (b_dawg b) = 5%N.
Proof. eexists _, _. run. vm_compute; reflexivity. Qed.

(** ** C15: iteration lists every term once, shortest first. *)
Theorem C15_iterate : forall alloc h0 terms h b, allocator alloc -> strictly_ascending terms ->
  (N.of_nat (length terms) < 2 ^ 64)%N ->
  runs_to (fun fuel => sorted_dawg fuel alloc h0 terms) (h, Some b) ->
  exists listed, runs_to (fun fuel => iterate fuel h (b_dawg b)) listed /\
    Permutation listed terms /\ sorted_by shortlex_lt listed.
Proof.
  intros alloc h0 ts h b A St L R. apply sorted_dawg_built in R; auto. destruct R as (_ & Bu & _).
  pose proof (trie_sorted ts) as TS. pose proof (words_sorted _ TS) as WS.
  assert (P : Permutation (words (trie ts)) ts).
  { apply NoDup_Permutation.
    - eapply StronglySorted_NoDup; eauto using shortlex_irrefl.
    - eapply StronglySorted_NoDup with (R := lex_lt); eauto using lex_irrefl.
      apply sorted_by_StronglySorted; auto. intros; eapply lex_trans; eauto.
    - intros w. rewrite words_In by auto. apply tin_trie. }
  pose proof (Permutation_length P) as Len.
  exists (words (trie ts)). split; [|split; auto using StronglySorted_sorted_by].
  exists (tsize (trie ts) + length ts + 2). intros fuel Hf.
  assert (E : d_size (b_dawg b) = N.of_nat (length ts)).
  { rewrite (bu_size _ _ _ _ Bu). apply N.mod_small. exact L. }
  rewrite iterate_ok with (t := trie ts) (n := length ts); auto; [|apply Bu | lia | rewrite E; exact L].
  f_equal. rewrite <- Len. destruct (words (trie ts)) as [|w l] eqn:Ew; auto.
  cbn [length tl next_value]. apply emitted_all.
Qed.
Print Assumptions C15_iterate.

Example C15_case : exists h b, sorted_dawg 20 bump [] some_terms = Ok (h, Some b) /\
  iterate 20 h (b_dawg b) = Ok [sa; sab; scb; scab].
Proof. eexists _, _. run. vm_compute; reflexivity. Qed.

(** ** C16: the automaton is minimal. *)
Lemma unf_tsorted : forall h p t, unf h p t -> tsorted t.
Proof.
  intros h p t U. revert p U. induction t as [f es IH] using tree_ind'. intros p U.
  apply unf_inv in U. destruct U as (n & _ & _ & S & Us & _). cbn in *. constructor.
  - eapply unfs_sorted; eauto.
  - rewrite Forall_forall in *. intros [c t] I. cbn.
    assert (exists q, unf h q t) as (q & U).
    { clear - Us I. induction Us; [destruct I|]. destruct I as [I|I]; eauto. injection I as <- <-. eauto. }
    apply (IH _ I q U).
Qed.

Lemma path_useful : forall h p w q t, path h p w q -> unf h p t -> useful t -> nonempty t ->
  exists t', unf h q t' /\ useful t' /\ nonempty t'.
Proof.
  intros h p w q t Pa. revert t. induction Pa as [p|p n c r w q G I Pa IH]; intros t U Us Ne.
  - eauto.
  - inversion U; subst. assert (n0 = n) by congruence. subst.
    destruct (unfs_In _ _ _ _ _ H2 I) as (t' & I' & U').
    inversion Us as [? ? F1 F2]; subst. rewrite Forall_forall in F1, F2.
    eapply IH; eauto. apply (F2 _ I'). apply (F1 _ I').
Qed.

Lemma path_useful' : forall h p w q t, path h p w q -> unf h p t -> useful t ->
  exists t', unf h q t' /\ useful t'.
Proof.
  intros h p w q t Pa U Us. destruct Pa as [p|p n c r w q G I Pa].
  - eauto.
  - inversion U; subst. assert (n0 = n) by congruence. subst.
    destruct (unfs_In _ _ _ _ _ H2 I) as (t' & I' & U').
    inversion Us as [? ? F1 F2]; subst. rewrite Forall_forall in F1, F2.
    destruct (path_useful _ _ _ _ _ Pa U' (F2 _ I') (F1 _ I')) as (t2 & ? & ? & _). eauto.
Qed.

Theorem C16_minimal : forall alloc h0 terms h b, allocator alloc ->
  runs_to (fun fuel => sorted_dawg fuel alloc h0 terms) (h, Some b) ->
  (forall p q, reach h (d_root (b_dawg b)) p -> reach h (d_root (b_dawg b)) q ->
     (forall w, accepts_from h p w <-> accepts_from h q w) -> p = q) /\
  (terms <> [] -> forall p, reach h (d_root (b_dawg b)) p -> exists w, accepts_from h p w).
Proof.
  intros alloc h0 ts h b A R. apply sorted_dawg_built in R; auto. destruct R as (_ & Bu & _).
  pose proof (bu_tree _ _ _ _ Bu) as U. split.
  - intros p q Rp Rq E. pose proof Rp as [u Pu]. pose proof Rq as [v Pv].
    destruct (path_useful' _ _ _ _ _ Pu U (trie_useful ts)) as (tp & Up & Usp).
    destruct (path_useful' _ _ _ _ _ Pv U (trie_useful ts)) as (tq & Uq & Usq).
    assert (tp = tq).
    { apply tree_ext; eauto using unf_tsorted. apply tin_bool_ext. intros w.
      rewrite <- (accepts_tin _ _ _ w Up), <- (accepts_tin _ _ _ w Uq). apply E. }
    subst. eapply (bu_min _ _ _ _ Bu); eauto.
  - intros NE p [u Pu].
    assert (nonempty (trie ts)) as Ne.
    { destruct ts as [|t ts]; [congruence|]. exists t. apply tin_trie. left; auto. }
    destruct (path_useful _ _ _ _ _ Pu U (trie_useful ts) Ne) as (tp & Up & _ & (w & Tw)).
    exists w. eapply accepts_tin; eauto.
Qed.
Print Assumptions C16_minimal.

(** Here "a", "ab", "cab" and "cb" need five nodes: the nodes reached by "a", by
    "c" and by "ca" differ, the one reached by "ab", "cab" and "cb" is shared. *)
Example C16_case : exists h b, sorted_dawg 20 bump [] some_terms = Ok (h, Some b) /\
  all_nodes 20 h (b_dawg b) = Ok [1; 2; 4; 3; 5]%N.
Proof. eexists _, _. run. vm_compute; reflexivity. Qed.

(** ** C17: add accepts exactly what keeps the order; a rejected add changes
    nothing; after finish() the dictionary holds exactly the accepted terms. *)
Theorem C17_add : forall alloc h0 history t flags h b, allocator alloc ->
  runs_to (fun fuel => under_construction fuel alloc h0 history) (flags, h, b) ->
  exists kept answer h' b',
    greedy [] history flags kept /\
    runs_to (fun fuel => add fuel alloc h b t) (answer, h', b') /\
    (answer = true <-> ~ lex_lt t (last kept [])) /\
    (answer = false -> h' = h /\ b' = b) /\
    (answer = true -> d_size (b_dawg b') = ((d_size (b_dawg b) + 1) mod 2 ^ 64)%N).
Proof.
  intros alloc h0 ts t flags h b A R.
  destruct (under_construction_gen alloc h0 ts (length t + 1) A) as (B & LB & flags' & kept & h1 & b1 & w & frs & t0 & G & E & BI & P & S).
  assert (R' : runs_to (fun fuel => under_construction fuel alloc h0 ts) (flags', h1, b1)) by (exists B; auto).
  pose proof (runs_to_det _ _ _ _ R R') as X. injection X as <- <- <-.
  exists kept. destruct (lex_lt_dec t (b_prev b)) as [L|L].
  - exists false, h, b. split; auto. split.
    + exists 0. intros. apply add_reject; auto.
    + rewrite <- P. split; [|split; [auto|discriminate]]. split; [discriminate|tauto].
  - destruct (add_ok alloc B h0 h b _ w frs t0 t A BI ltac:(lia) L) as (h' & b' & w1 & frs1 & t1 & E1 & BI1 & P1 & R1 & S1).
    exists true, h', b'. split; auto. split; [exists B; auto|]. rewrite <- P.
    split; [tauto|]. split; [discriminate|]. auto.
Qed.
Print Assumptions C17_add.

Theorem C17_kept : forall alloc h0 history, allocator alloc ->
  exists flags kept h b,
    greedy [] history flags kept /\
    runs_to (fun fuel => finished fuel alloc h0 history) (flags, h, b) /\
    d_size (b_dawg b) = (N.of_nat (length kept) mod 2 ^ 64)%N /\
    forall w, (N.of_nat (length w) <= INT_MAX)%N ->
      exists answer, contains h (b_dawg b) w = Ok answer /\ (answer = true <-> In w kept).
Proof.
  intros alloc h0 ts A.
  destruct (finished_ok alloc h0 ts A) as (B & flags & kept & h & b & w & G & E & I & Un & Wk & S).
  exists flags, kept, h, b. split; auto. split; [exists B; auto|]. split; auto.
  intros v L. exists (tin (trie kept) v). split; [|apply tin_trie].
  apply contains_ok; auto.
  pose proof (iv_top _ _ _ _ _ _ _ I) as Ut. rewrite Un in Ut. exact Ut.
Qed.
Print Assumptions C17_kept.

Example C17_case : exists h b, finished 20 bump [] [sab; sa; sb; sab; scb] = Ok ([true; false; true; false; true], h, b) /\
  contains h (b_dawg b) sa = Ok false /\ contains h (b_dawg b) sb = Ok true.
Proof. eexists _, _. run. run. vm_compute; reflexivity. Qed.

(** ** C18: every node is freed exactly once.  Freeing twice, freeing or reading
    a node that is not allocated is UB in the model, and [same_heap] says that
    exactly the nodes allocated before are allocated afterwards. *)
Theorem C18_lifetime : forall alloc h0 history do_finish do_clean_up, allocator alloc ->
  exists h, runs_to (fun fuel => lifetime fuel alloc h0 history do_finish do_clean_up) h /\ same_heap h h0.
Proof. intros. apply lifetime_ok; auto. Qed.
Print Assumptions C18_lifetime.

Theorem C18_sorted_dawg : forall alloc h0 terms h b, allocator alloc ->
  runs_to (fun fuel => sorted_dawg fuel alloc h0 terms) (h, Some b) ->
  exists h', runs_to (fun fuel => destroy fuel h b) h' /\ same_heap h' h0.
Proof.
  intros alloc h0 ts h b A R. apply sorted_dawg_built in R; auto. destruct R as (_ & Bu & Wk).
  eapply destroy_built; eauto.
Qed.
Print Assumptions C18_sorted_dawg.

(** The nodes of a finished dictionary are new, the rest of memory is
    untouched, and nothing is left behind but the nodes reachable from the
    root. *)
Theorem C18_footprint : forall alloc h0 terms h b p, allocator alloc ->
  runs_to (fun fuel => sorted_dawg fuel alloc h0 terms) (h, Some b) ->
  (reach h (d_root (b_dawg b)) p -> allocated h p /\ ~ allocated h0 p) /\
  (~ reach h (d_root (b_dawg b)) p -> hget h p = hget h0 p).
Proof.
  intros alloc h0 ts h b p A R. apply sorted_dawg_built in R; auto. destruct R as (_ & Bu & Wk).
  split.
  - intros Re. unfold allocated. rewrite (bu_new _ _ _ _ Bu _ Re).
    destruct (unf_reach_alloc _ _ _ _ (bu_tree _ _ _ _ Bu) Re) as (_ & n & G). rewrite G.
    split; [discriminate|tauto].
  - apply Bu.
Qed.
Print Assumptions C18_footprint.

Example C18_case :
  rbind (lifetime 30 bump [] [sab; sa; sb; sab; scb] true true) (fun h => Ok (live h)) = Ok [] /\
  rbind (lifetime 30 lifo [] [sab; sa; sb; sab; scb] false false) (fun h => Ok (live h)) = Ok [] /\
  rbind (lifetime 30 lifo [(7, Some (Node true []))]%N [sab; sb; scab] true false)
    (fun h => Ok (live h)) = Ok [(7, Node true [])]%N.
Proof. run. run. vm_compute; reflexivity. Qed.

(** ** C19: equality of dictionaries is equality of the sets of terms. *)
Theorem C19_equality_repeats : forall alloc h0 terms1 terms2 h1 b1 h2 b2, allocator alloc ->
  runs_to (fun fuel => sorted_dawg fuel alloc h0 terms1) (h1, Some b1) ->
  runs_to (fun fuel => sorted_dawg fuel alloc h1 terms2) (h2, Some b2) ->
  exists answer, runs_to (fun fuel => dawg_eq fuel h2 (b_dawg b1) (b_dawg b2)) answer /\
    (answer = true <->
       (forall w, In w terms1 <-> In w terms2) /\
       (N.of_nat (length terms1) mod 2 ^ 64 = N.of_nat (length terms2) mod 2 ^ 64)%N).
Proof.
  intros alloc h0 ts1 ts2 h1 b1 h2 b2 A R1 R2.
  apply sorted_dawg_built in R1, R2; auto. destruct R1 as (_ & Bu1 & _). destruct R2 as (_ & Bu2 & _).
  destruct (dawg_eq_ok h2 (b_dawg b1) (b_dawg b2) (trie ts1) (trie ts2)) as (r & Ru & I).
  - eapply built_preserves; eauto. apply Bu1.
  - apply Bu2.
  - exists r. split; auto. rewrite I, (bu_size _ _ _ _ Bu1), (bu_size _ _ _ _ Bu2).
    change (2 ^ 64)%N with W.
    split; intros [X Y]; split; auto.
    + intros w. rewrite <- !tin_trie, Y. tauto.
    + apply trie_ext; auto.
Qed.
Print Assumptions C19_equality_repeats.

Theorem C19_equality : forall alloc h0 terms1 terms2 h1 b1 h2 b2, allocator alloc ->
  strictly_ascending terms1 -> strictly_ascending terms2 ->
  runs_to (fun fuel => sorted_dawg fuel alloc h0 terms1) (h1, Some b1) ->
  runs_to (fun fuel => sorted_dawg fuel alloc h1 terms2) (h2, Some b2) ->
  exists answer, runs_to (fun fuel => dawg_eq fuel h2 (b_dawg b1) (b_dawg b2)) answer /\
    (answer = true <-> terms1 = terms2).
Proof.
  intros alloc h0 ts1 ts2 h1 b1 h2 b2 A S1 S2 R1 R2.
  destruct (C19_equality_repeats _ _ _ _ _ _ _ _ A R1 R2) as (r & Ru & I).
  exists r. split; auto. rewrite I. split.
  - intros [X _]. eapply sorted_unique with (R := lex_lt); eauto using lex_irrefl, lex_trans.
    + apply sorted_by_StronglySorted; auto. intros; eapply lex_trans; eauto.
    + apply sorted_by_StronglySorted; auto. intros; eapply lex_trans; eauto.
  - intros ->. split; tauto.
Qed.
Print Assumptions C19_equality.

Example C19_case : exists h1 b1 h2 b2 h3 b3,
  sorted_dawg 20 bump [] some_terms = Ok (h1, Some b1) /\
  sorted_dawg 20 bump h1 some_terms = Ok (h2, Some b2) /\
  sorted_dawg 20 bump h2 [sa; sab; scab; scb; scb] = Ok (h3, Some b3) /\
  dawg_eq 20 h3 (b_dawg b1) (b_dawg b2) = Ok true /\
  dawg_eq 20 h3 (b_dawg b2) (b_dawg b3) = Ok false.
Proof. eexists _, _, _, _, _, _. run. run. run. run. vm_compute; reflexivity. Qed.

(** ** C20: equal objects have equal hash codes. *)
Theorem C20_node_hash : forall fuel h a b, maps_in_order h -> edges_in_order a -> edges_in_order b ->
  node_eq fuel h a b = Ok true ->
  exists code, node_hash fuel h a = Ok code /\ node_hash fuel h b = Ok code.
Proof. intros. apply node_eq_hash; auto. Qed.
Print Assumptions C20_node_hash.

Theorem C20_dawg_hash : forall fuel h d1 d2, maps_in_order h -> dawg_eq fuel h d1 d2 = Ok true ->
  exists code, dawg_hash fuel h d1 = Ok code /\ dawg_hash fuel h d2 = Ok code.
Proof.
  intros fuel h d1 d2 M E. unfold dawg_eq in E.
  destruct (N.eqb (d_size d1) (d_size d2)) eqn:Es; cbn in E; [|discriminate]. apply N.eqb_eq in Es.
  destruct (read h (d_root d1)) as [n1| |] eqn:R1; cbn in E; try discriminate.
  destruct (read h (d_root d2)) as [n2| |] eqn:R2; cbn in E; try discriminate.
  assert (S1 : forall r z, read h r = Ok z -> edges_in_order z).
  { intros r z R. unfold read in R. destruct (N.eqb r null); [discriminate|].
    destruct (hget h r) eqn:G; cbn in R; [|discriminate]. injection R as <-. eapply M; eauto. }
  destruct (C20_node_hash fuel h n1 n2 M (S1 _ _ R1) (S1 _ _ R2) E) as (k & E1 & E2).
  unfold dawg_hash. rewrite R1, R2, Es. cbn. rewrite E1, E2. cbn. eauto.
Qed.
Print Assumptions C20_dawg_hash.

(** SymmetricPair: equal as keys iff the same two strings in either order; equal
    keys have the same hash code.  Strings longer than INT_MAX are passed to the
    hash function with a narrowed length, which the model counts as UB. *)
Lemma symmetric_pair_eq : forall u v x y,
  key_eqb (symmetric_pair u v) (symmetric_pair x y) = true <-> (u = x /\ v = y) \/ (u = y /\ v = x).
Proof.
  intros u v x y. unfold key_eqb. rewrite Bool.andb_true_iff, !str_eqb_eq. unfold symmetric_pair.
  assert (T : forall a b, str_ltb a b = false -> str_ltb b a = false -> a = b).
  { intros a b H1 H2. destruct (lex_total a b) as [X|[X|X]]; auto; apply str_ltb_lex in X; congruence. }
  assert (As : forall a b, str_ltb a b = true -> str_ltb b a = true -> False).
  { intros a b H1 H2. apply str_ltb_lex in H1, H2. eapply lex_irrefl. eapply lex_trans; eauto. }
  destruct (str_ltb u v) eqn:E1, (str_ltb x y) eqn:E2; cbn [fst snd]; split; intros H.
  - tauto.
  - destruct H as [[-> ->]|[-> ->]]; auto. exfalso; eauto.
  - destruct H as [-> ->]. auto.
  - destruct H as [[-> ->]|[-> ->]]; [congruence|auto].
  - destruct H as [-> ->]. auto.
  - destruct H as [[-> ->]|[-> ->]]; [congruence|auto].
  - destruct H as [-> ->]. auto.
  - destruct H as [[-> ->]|[-> ->]]; auto.
Qed.

Theorem C20_pair_hash : forall u v x y,
  (key_eqb (symmetric_pair u v) (symmetric_pair x y) = true <-> (u = x /\ v = y) \/ (u = y /\ v = x)) /\
  (key_eqb (symmetric_pair u v) (symmetric_pair x y) = true ->
   (N.of_nat (length u) <= INT_MAX)%N -> (N.of_nat (length v) <= INT_MAX)%N ->
   exists code, pair_hash (symmetric_pair u v) = Ok code /\ pair_hash (symmetric_pair x y) = Ok code).
Proof.
  intros u v x y. split; [apply symmetric_pair_eq|]. intros E Lu Lv.
  assert (symmetric_pair u v = symmetric_pair x y) as <-.
  { unfold key_eqb in E. rewrite Bool.andb_true_iff, !str_eqb_eq in E. destruct E as [E1 E2].
    destruct (symmetric_pair u v), (symmetric_pair x y); cbn in *; congruence. }
  destruct (pair_hash_short (symmetric_pair u v)) as (code & ->); [|eauto].
  unfold symmetric_pair. destruct (str_ltb u v); split; auto.
Qed.
Print Assumptions C20_pair_hash.

Example C20_case : exists h1 b1 h2 b2 code,
  sorted_dawg 20 bump [] some_terms = Ok (h1, Some b1) /\
  sorted_dawg 20 bump h1 some_terms = Ok (h2, Some b2) /\
  dawg_eq 20 h2 (b_dawg b1) (b_dawg b2) = Ok true /\
  dawg_hash 20 h2 (b_dawg b1) = Ok code /\ dawg_hash 20 h2 (b_dawg b2) = Ok code.
Proof. eexists _, _, _, _, _. run. run. run. run. vm_compute; reflexivity. Qed.

(** ** C21: repeated terms. *)
Theorem C21_repeats : forall alloc h0 terms h b, allocator alloc ->
  (N.of_nat (length terms) < 2 ^ 64)%N -> terms <> [] ->
  runs_to (fun fuel => sorted_dawg fuel alloc h0 terms) (h, Some b) ->
  exists distinct, NoDup distinct /\ (forall w, In w distinct <-> In w terms) /\
    sorted_by shortlex_lt distinct /\
    runs_to (fun fuel => iterate fuel h (b_dawg b))
      (distinct ++ repeat (last distinct []) (length terms - length distinct)).
Proof.
  intros alloc h0 ts h b A L NE R. apply sorted_dawg_built in R; auto. destruct R as (_ & Bu & _).
  pose proof (trie_sorted ts) as TS. pose proof (words_sorted _ TS) as WS.
  assert (I : forall w, In w (words (trie ts)) <-> In w ts).
  { intros w. rewrite words_In by auto. apply tin_trie. }
  exists (words (trie ts)).
  assert (ND : NoDup (words (trie ts))) by (eapply StronglySorted_NoDup; eauto using shortlex_irrefl).
  split; [auto|]. split; [auto|]. split; [auto using StronglySorted_sorted_by|].
  pose proof (NoDup_incl_length ND (fun w => proj1 (I w))) as Len.
  exists (tsize (trie ts) + length ts + 2). intros fuel Hf.
  assert (E : d_size (b_dawg b) = N.of_nat (length ts)).
  { rewrite (bu_size _ _ _ _ Bu). apply N.mod_small. exact L. }
  rewrite iterate_ok with (t := trie ts) (n := length ts); auto; [|apply Bu | lia | rewrite E; exact L].
  f_equal. destruct (words (trie ts)) as [|w l] eqn:Ew.
  - exfalso. destruct ts as [|t ts]; [congruence|]. apply (I t). left; auto.
  - cbn [tl next_value]. cbn [length] in Len |- *.
    replace (length ts) with (S (length l) + (length ts - S (length l))) at 1 by lia.
    rewrite emitted_more, last_cons. reflexivity.
Qed.
Print Assumptions C21_repeats.

Example C21_case : exists h b, sorted_dawg 20 bump [] [sa; sa; sab; scab; scb; scb] = Ok (h, Some b) /\
  iterate 20 h (b_dawg b) = Ok [sa; sab; scb; scab; scab; scab].
Proof. eexists _, _. run. vm_compute; reflexivity. Qed.

(** ** C22: when terms become visible. *)

(** Before finish() an accepted term is contained unless its first character is
    that of the last accepted term. *)
Theorem C22_before_finish : forall alloc h0 history, allocator alloc ->
  exists flags kept h b,
    greedy [] history flags kept /\
    runs_to (fun fuel => under_construction fuel alloc h0 history) (flags, h, b) /\
    forall w, (N.of_nat (length w) <= INT_MAX)%N ->
      exists answer, contains h (b_dawg b) w = Ok answer /\
        (answer = true <-> In w kept /\
           match w, last kept [] with c :: _, d :: _ => c <> d | _, _ => True end).
Proof.
  intros alloc h0 ts A.
  destruct (under_construction_ok alloc h0 ts A) as (B & flags & kept & h & b & w & frs & t0 & G & E & BI & P & S).
  destruct (unfinished_tree _ _ _ _ _ _ _ _ BI) as (tr & U & I).
  exists flags, kept, h, b. split; auto. split; [exists B; auto|].
  intros v L. exists (tin tr v). split; [apply contains_ok; auto|].
  rewrite I, P, tin_trie. tauto.
Qed.
Print Assumptions C22_before_finish.

Example C22_case_before : exists h b, under_construction 20 bump [] [sab; scab; scb] = Ok ([true; true; true], h, b) /\
  contains h (b_dawg b) scb = Ok false /\ contains h (b_dawg b) scab = Ok false /\ contains h (b_dawg b) sab = Ok true.
Proof. eexists _, _. run. run. run. vm_compute; reflexivity. Qed.

(** add; finish; add; finish: the second term is accepted but never becomes
    contained, and a string that was never added does. *)
Definition two_rounds (fuel : nat) (alloc : heap -> ptr) (h : heap) (t1 t2 : str)
  : res (bool * bool * heap * builder) :=
  let (h1, b1) := new_sorted_dawg alloc h in
  do (r1, h2, b2) <- add fuel alloc h1 (init b1) t1;
  do (h3, b3) <- finish fuel h2 b2;
  do (r2, h4, b4) <- add fuel alloc h3 b3 t2;
  do (h5, b5) <- finish fuel h4 b4;
  Ok (r1, r2, h5, b5).

Theorem C22_add_after_finish_refuted : exists alloc t1 t2 h b, allocator alloc /\ ascending [t1; t2] /\
  runs_to (fun fuel => two_rounds fuel alloc [] t1 t2) (true, true, h, b) /\
  contains h (b_dawg b) t2 = Ok false /\
  exists t3, ~ In t3 [t1; t2] /\ contains h (b_dawg b) t3 = Ok true.
Proof.
  exists bump, sa, sab. eexists _, _. split; [apply bump_allocator|].
  split; [unfold ascending; ascending_tac|].
  split. { exists 9. intros fuel H. do 9 (destruct fuel as [|fuel]; [lia|]). vm_compute. reflexivity. }
  split; [vm_compute; reflexivity|].
  exists sb. split; [|vm_compute; reflexivity]. vm_compute. intuition discriminate.
Qed.
Print Assumptions C22_add_after_finish_refuted.

(** With other terms the same calls leave a dangling pointer behind. *)
Theorem C22_use_after_free_refuted : exists alloc t1 t2, allocator alloc /\ ascending [t1; t2] /\
  runs_into_ub (fun fuel => do (r1, r2, h, b) <- two_rounds fuel alloc [] t1 t2; contains h (b_dawg b) t2).
Proof.
  exists bump, sb, sbb. split; [apply bump_allocator|].
  split; [unfold ascending; ascending_tac|].
  exists 9. intros fuel H. do 9 (destruct fuel as [|fuel]; [lia|]). vm_compute. reflexivity.
Qed.
Print Assumptions C22_use_after_free_refuted.

(** ** C23: remove does nothing: calls of remove anywhere in a history return
    false and leave no trace. *)
Inductive call := Add (t : str) | Remove (t : str).

Fixpoint calls (fuel : nat) (alloc : heap -> ptr) (h : heap) (b : builder) (cs : list call)
  : res (list bool * heap * builder) :=
  match cs with
  | [] => Ok ([], h, b)
  | c :: cs' =>
      do (r, h1, b1) <- (match c with Add t => add fuel alloc h b t | Remove t => Ok (remove h b t) end);
      do (rs, h2, b2) <- calls fuel alloc h1 b1 cs';
      Ok (r :: rs, h2, b2)
  end.

Fixpoint added (cs : list call) : list str :=
  match cs with
  | [] => []
  | Add t :: cs' => t :: added cs'
  | Remove _ :: cs' => added cs'
  end.

(** The answers to the calls, given the answers to the calls of add. *)
Fixpoint answers (cs : list call) (rs : list bool) : list bool :=
  match cs, rs with
  | Add _ :: cs', r :: rs' => r :: answers cs' rs'
  | Remove _ :: cs', _ => false :: answers cs' rs
  | _, _ => []
  end.

Theorem C23_remove : forall cs fuel alloc h b rs h' b',
  adds fuel alloc h b (added cs) = Ok (rs, h', b') ->
  calls fuel alloc h b cs = Ok (answers cs rs, h', b').
Proof.
  induction cs as [|[t|t] cs IH]; intros fuel alloc h b rs h' b' E; cbn in *.
  - injection E as <- <- <-. auto.
  - destruct (add fuel alloc h b t) as [[[r h1] b1]| |]; cbn in *; try discriminate.
    destruct (adds fuel alloc h1 b1 (added cs)) as [[[rs1 h2] b2]| |] eqn:E1; cbn in *; try discriminate.
    injection E as <- <- <-. rewrite (IH _ _ _ _ _ _ _ E1). auto.
  - rewrite (IH _ _ _ _ _ _ _ E). auto.
Qed.
Print Assumptions C23_remove.

Example C23_case : exists h b h1 b1, new_sorted_dawg bump [] = (h, b) /\
  adds 20 bump h (init b) [sa; scb] = Ok ([true; true], h1, b1) /\
  calls 20 bump h (init b) [Add sa; Remove sa; Add scb; Remove sb] = Ok ([true; false; true; false], h1, b1).
Proof. eexists _, _, _, _. run. run. vm_compute; reflexivity. Qed.

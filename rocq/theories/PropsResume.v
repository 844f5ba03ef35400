(** * PropsResume: adding to a dictionary after finish() (C107). *)
From Coq Require Import Sorting.Sorted Permutation.
From Verif Require Import Base Spec ModelHash ModelDawg SpecDawg SpecQuery SpecAlike SpecSame TreeProofs HeapProofs
  BuildProofs BuildProofs2 IterProofs DawgProofs PropsDawg SpecResume ResumeProofs.
From Verif Require QueryFacts GraftProofs SameProofs PropsSame.

Lemma trie_alike : forall stored h d, unf h (d_root d) (trie stored) -> d_size d = (N.of_nat (length stored) mod W)%N ->
  forall terms h2 d2, dictionary terms h2 d2 -> Permutation stored terms -> alike h d h2 d2.
Proof.
  intros stored h d U S terms h2 d2 D P. destruct (QueryFacts.dictionary_unf _ _ _ D) as (U2 & _ & S2).
  rewrite (trie_ext stored terms) in U by (intros w; split; apply Permutation_in; auto using Permutation_sym).
  apply PropsSame.C106_alike.
  - exact (GraftProofs.unf_solid _ _ _ U).
  - exact (GraftProofs.unf_solid _ _ _ U2).
  - rewrite S, S2, (Permutation_length P). auto.
  - exact (PropsSame.unf_strings _ _ _ _ _ U U2).
Qed.

(** ** C107: any calls of add, finish and minimize. *)

(** Whatever is added after however many calls of finish(), as long as nothing is
    linked over what is there: the strings of the dictionary, its size, and what is
    left when it is destroyed.  It cannot be told apart from a dictionary made of
    the same strings in one go. *)
Theorem C107_played : forall alloc h0 l flags stored, allocator alloc ->
  tale [] [] [] l flags stored ->
  exists h b, runs_to (fun fuel => played fuel alloc h0 l) (flags, h, b) /\
    (forall w, (N.of_nat (length w) <= INT_MAX)%N ->
       exists answer, contains h (b_dawg b) w = Ok answer /\ (answer = true <-> In w stored)) /\
    d_size (b_dawg b) = (N.of_nat (length stored) mod W)%N /\
    (forall terms h2 d2, dictionary terms h2 d2 -> Permutation stored terms -> alike h (b_dawg b) h2 d2) /\
    exists h', runs_to (fun fuel => destroy fuel h b) h' /\ same_heap h' h0.
Proof.
  intros alloc h0 l flags stored A T.
  destruct (played_ok alloc h0 l flags stored A T) as (h & b & R & U & S & _ & D).
  exists h, b. split; [auto|]. split; [|split; [auto|split; [|auto]]].
  - intros v L. exists (tin (trie stored) v). split; [|apply tin_trie]. apply contains_ok; auto.
  - apply trie_alike; auto.
Qed.
Print Assumptions C107_played.

(** Unless clean_up() and init() are called between, it has no more nodes than it
    needs: no two accept the same strings, and every one accepts some. *)
Lemma distinct_minimal : forall h root stored, unf h root (trie stored) -> forall p q, reach h root p -> reach h root q ->
  (forall w, accepts_from h p w <-> accepts_from h q w) -> exists t, unf h p t /\ unf h q t.
Proof.
  intros h root stored U p q [u Pu] [v Pv] E.
  destruct (path_useful' _ _ _ _ _ Pu U (trie_useful stored)) as (tp & Up & Usp).
  destruct (path_useful' _ _ _ _ _ Pv U (trie_useful stored)) as (tq & Uq & Usq).
  assert (tp = tq).
  { apply tree_ext; eauto using unf_tsorted. apply tin_bool_ext. intros w.
    rewrite <- (accepts_tin _ _ _ w Up), <- (accepts_tin _ _ _ w Uq). apply E. }
  subst. eauto.
Qed.

Theorem C107_minimal : forall alloc h0 l flags stored h b, allocator alloc ->
  tale [] [] [] l flags stored -> ~ In Reopen l ->
  runs_to (fun fuel => played fuel alloc h0 l) (flags, h, b) ->
  (forall p q, reach h (d_root (b_dawg b)) p -> reach h (d_root (b_dawg b)) q ->
     (forall w, accepts_from h p w <-> accepts_from h q w) -> p = q) /\
  (stored <> [] -> forall p, reach h (d_root (b_dawg b)) p -> exists w, accepts_from h p w).
Proof.
  intros alloc h0 l flags stored h b A T N R.
  destruct (played_ok alloc h0 l flags stored A T) as (h' & b' & R' & U & _ & Di & _).
  pose proof (runs_to_det _ _ _ _ R R') as X. injection X as <- <-. split.
  - intros p q Rp Rq E. destruct (distinct_minimal _ _ _ U p q Rp Rq E) as (t & Up & Uq). eapply Di; eauto.
  - intros NE p [u Pu].
    assert (nonempty (trie stored)) as Ne.
    { destruct stored as [|t ts]; [congruence|]. exists t. apply tin_trie. left; auto. }
    destruct (path_useful _ _ _ _ _ Pu U (trie_useful stored) Ne) as (tp & Up & _ & (w & Tw)).
    exists w. eapply accepts_tin; eauto.
Qed.
Print Assumptions C107_minimal.

(** If no term shares more characters with the one before it than minimize() and
    finish() have left since then, the dictionary holds exactly the accepted
    terms.  Then a round after finish() is as good as the first. *)
Theorem C107_anew : forall alloc h0 l flags kept, allocator alloc ->
  anew [] 0 l flags kept ->
  greedy [] (entered l) flags kept /\
  exists h b, runs_to (fun fuel => played fuel alloc h0 l) (flags, h, b) /\
    (forall w, (N.of_nat (length w) <= INT_MAX)%N ->
       exists answer, contains h (b_dawg b) w = Ok answer /\ (answer = true <-> In w kept)) /\
    d_size (b_dawg b) = (N.of_nat (length kept) mod W)%N /\
    (forall h2 d2, dictionary kept h2 d2 -> alike h (b_dawg b) h2 d2) /\
    exists h', runs_to (fun fuel => destroy fuel h b) h' /\ same_heap h' h0.
Proof.
  intros alloc h0 l flags kept A N. split; [eapply anew_greedy; eauto|].
  destruct (C107_played alloc h0 l flags kept A) as (h & b & R & C & S & Al & D).
  { apply (anew_tale _ _ _ _ _ N [] []); auto. intros x []. }
  exists h, b. split; [auto|]. split; [auto|]. split; [auto|]. split; [|auto]. intros. eapply Al; eauto.
Qed.
Print Assumptions C107_anew.

(** Adding the last term once more after finish() makes the empty string a term. *)
Theorem C107_again : forall alloc h0 ts flags kept, allocator alloc ->
  greedy [] ts flags kept ->
  exists h b, runs_to (fun fuel => played fuel alloc h0 (map Enter ts ++ [Seal; Enter (last kept [])])) (flags ++ [true], h, b) /\
    (forall w, (N.of_nat (length w) <= INT_MAX)%N ->
       exists answer, contains h (b_dawg b) w = Ok answer /\ (answer = true <-> In w kept \/ w = [])) /\
    d_size (b_dawg b) = (N.of_nat (length kept + 1) mod W)%N /\
    exists h', runs_to (fun fuel => destroy fuel h b) h' /\ same_heap h' h0.
Proof.
  intros alloc h0 ts flags kept A G.
  destruct (C107_played alloc h0 (map Enter ts ++ [Seal; Enter (last kept [])]) (flags ++ [true]) (kept ++ [[]]) A)
    as (h & b & R & C & S & _ & D).
  { eapply tale_app with (kept := kept); eauto; [intros x []|]. cbn [app].
    pose proof (tale_keep (last kept []) [] kept (last kept []) [] [] [] [] (kept ++ [[]])) as K.
    rewrite !app_nil_r in K. apply K; auto.
    - cbn. auto.
    - apply lex_irrefl.
    - intros c r x E. discriminate.
    - rewrite firstn_nil. constructor. }
  exists h, b. split; auto. split; [|split; auto].
  - intros w L. destruct (C w L) as (a & E & I). exists a. split; auto. rewrite I, in_app_iff. cbn. intuition congruence.
  - rewrite S, app_length. auto.
Qed.
Print Assumptions C107_again.

(** Adding, after finish(), a term that goes on where the last one ends: add
    answers true, but it is the rest of the term that becomes a term. *)
Theorem C107_longer_refuted : forall alloc h0 ts flags kept c r, allocator alloc ->
  greedy [] ts flags kept -> last kept [] <> [] ->
  (forall x, ~ In (c :: x) kept) ->
  exists h b, runs_to (fun fuel => played fuel alloc h0 (map Enter ts ++ [Seal; Enter (last kept [] ++ c :: r)])) (flags ++ [true], h, b) /\
    (forall w, (N.of_nat (length w) <= INT_MAX)%N ->
       exists answer, contains h (b_dawg b) w = Ok answer /\ (answer = true <-> In w kept \/ w = c :: r)) /\
    ~ (In (last kept [] ++ c :: r) kept \/ last kept [] ++ c :: r = c :: r) /\
    d_size (b_dawg b) = (N.of_nat (length kept + 1) mod W)%N.
Proof.
  intros alloc h0 ts flags kept c r A G NE Ab.
  destruct (C107_played alloc h0 (map Enter ts ++ [Seal; Enter (last kept [] ++ c :: r)]) (flags ++ [true]) (kept ++ [c :: r]) A)
    as (h & b & R & C & S & _).
  { eapply tale_app with (kept := kept); eauto; [intros x []|]. cbn [app].
    apply (tale_keep (last kept []) [] kept (last kept []) (c :: r) [] [] []).
    - rewrite app_nil_r. auto.
    - cbn. auto.
    - intros X. rewrite <- (app_nil_r (last kept [])) in X at 2. apply lex_app_head in X. inversion X.
    - rewrite firstn_nil. intros c' r' x E I. injection E as <- <-. apply (Ab x). exact I.
    - rewrite firstn_nil. constructor. }
  exists h, b. split; auto. split; [|split].
  - intros w L. destruct (C w L) as (a & E & I). exists a. split; auto. rewrite I, in_app_iff. cbn. intuition congruence.
  - intros [I|E].
    + pose proof (greedy_kept_sorted _ _ _ _ G) as So.
      assert (Le : lex_le (last kept [] ++ c :: r) (last kept [])).
      { exact (sorted_last kept [] _ So I). }
      apply lex_le_not_lt in Le. apply Le.
      rewrite <- (app_nil_r (last kept [])) at 1. apply lex_app_head. constructor.
    + apply NE. apply (f_equal (@length _)) in E. rewrite app_length in E. destruct (last kept []); auto. cbn in E. lia.
  - rewrite S, app_length. auto.
Qed.
Print Assumptions C107_longer_refuted.

(** "a", "ab", finish, "a" (rejected), "cab", minimize(1), "cb", minimize(2),
    finish, clean_up, init, finish: the rounds are as good as one. *)
Definition rounds_of_calls : list act :=
  [Enter sa; Enter sab; Seal; Enter sa; Enter scab; Settle 1; Enter scb; Settle 2; Seal; Reopen; Seal].

Ltac in_order := let H := fresh in intros H; apply str_ltb_lex in H; vm_compute in H; discriminate.

Example C107_case : anew [] 0 rounds_of_calls [true; true; false; true; true] [sa; sab; scab; scb].
Proof.
  unfold rounds_of_calls.
  apply (anew_keep [] 0 [] sa []); [reflexivity|cbn; auto|in_order|cbn; lia|].
  apply (anew_keep sa 1 sa sb []); [reflexivity|cbn; auto|in_order|cbn; lia|].
  apply anew_seal. apply anew_drop; [apply str_ltb_lex; reflexivity|].
  apply (anew_keep sab 0 [] scab sab); [reflexivity|cbn; discriminate|in_order|cbn; lia|].
  apply anew_settle.
  apply (anew_keep scab 1 (lit "c") sb sab); [reflexivity|cbn; discriminate|in_order|cbn; lia|].
  apply anew_settle. apply anew_seal. apply anew_reopen. apply anew_seal. apply anew_nil.
Qed.

Example C107_run_case : exists h b, played 20 bump [] rounds_of_calls = Ok ([true; true; false; true; true], h, b) /\
  contains h (b_dawg b) scab = Ok true /\ contains h (b_dawg b) sab = Ok true /\ contains h (b_dawg b) sb = Ok false.
Proof. eexists _, _. run. run. run. vm_compute; reflexivity. Qed.

(** "a", "b", finish, "bcab": what is stored of the last is "cab". *)
Example C107_longer_case : exists h b,
  played 20 bump [] (map Enter [sa; sb] ++ [Seal; Enter (last [sa; sb] [] ++ scab)]) = Ok ([true; true; true], h, b) /\
  contains h (b_dawg b) scab = Ok true /\ contains h (b_dawg b) (sb ++ scab) = Ok false.
Proof. eexists _, _. run. run. vm_compute; reflexivity. Qed.

Example C107_longer_met : greedy [] [sa; sb] [true; true] [sa; sb] /\ last [sa; sb] [] <> [] /\
  forall x, ~ In ("c"%char :: x) [sa; sb].
Proof.
  split; [|split; [discriminate|]].
  - constructor; [apply lex_nil_le|]. constructor; [intros H; apply str_ltb_lex in H; vm_compute in H; discriminate|constructor].
  - intros x [E|[E|[]]]; discriminate.
Qed.

Example C107_again_case : exists h b,
  played 20 bump [] (map Enter [sa; sb] ++ [Seal; Enter sb]) = Ok ([true; true; true], h, b) /\
  contains h (b_dawg b) [] = Ok true /\ contains h (b_dawg b) sb = Ok true.
Proof. eexists _, _. run. run. vm_compute; reflexivity. Qed.

(** "ab", finish, "cb": both end in the same two nodes but one; with clean_up and
    init between they do not. *)
Example C107_minimal_case : exists h b, played 20 bump [] [Enter sab; Seal; Enter scb] = Ok ([true; true], h, b) /\
  all_nodes 20 h (b_dawg b) = Ok [1; 2; 3]%N.
Proof. eexists _, _. run. vm_compute; reflexivity. Qed.

Example C107_minimal_met : tale [] [] [] [Enter sab; Seal; Enter scb] [true; true] [sab; scb] /\
  ~ In Reopen [Enter sab; Seal; Enter scb].
Proof.
  split; [|intros H; repeat (destruct H as [H|H]; [discriminate|]); destruct H].
  apply (tale_keep [] [] [] [] sab []); [reflexivity|cbn; auto|in_order|intros c r x _ []|].
  apply tale_seal.
  apply (tale_keep sab [] [sab] [] scb sab); [reflexivity|cbn; discriminate|in_order|intros c r x E [I|[]]; cbn in *; congruence|].
  apply tale_nil.
Qed.

(** Across clean_up and init nothing is shared: "ab", finish, clean_up, init, "cb"
    leaves two nodes for the ends of the two terms. *)
Theorem C107_reopen_refuted : exists alloc h0 l flags stored h b p q, allocator alloc /\
  tale [] [] [] l flags stored /\
  runs_to (fun fuel => played fuel alloc h0 l) (flags, h, b) /\
  reach h (d_root (b_dawg b)) p /\ reach h (d_root (b_dawg b)) q /\ p <> q /\
  forall w, accepts_from h p w <-> accepts_from h q w.
Proof.
  exists bump, [], [Enter sab; Seal; Reopen; Enter scb], [true; true], [sab; scb]. eexists _, _, 3%N, 5%N.
  split; [exact bump_allocator|]. split; [|split].
  - apply (tale_keep [] [] [] [] sab []); [reflexivity|cbn; auto|in_order|intros c r x _ []|].
    apply tale_seal. apply tale_reopen.
    apply (tale_keep sab [] [sab] [] scb sab); [reflexivity|cbn; discriminate|in_order|intros c r x E [I|[]]; cbn in *; congruence|].
    apply tale_nil.
  - exists 20. intros fuel H. do 20 (destruct fuel as [|fuel]; [lia|]). vm_compute. reflexivity.
  - split; [|split; [|split; [discriminate|]]].
    + exists sab. repeat (eapply path_cons; [reflexivity|cbn; auto|]). apply path_nil.
    + exists scb. repeat (eapply path_cons; [reflexivity|cbn; auto|]). apply path_nil.
    + intros w. assert (L : forall p h, (p <> null)%N -> hget h p = Some (Node true []) -> unf h p (T true [])).
      { intros p h N G. eapply unf_intro; [auto|exact G|]. repeat split; cbn; constructor. }
      transitivity (tin (T true []) w = true); [|symmetry]; apply accepts_tin, L; try discriminate; reflexivity.
Qed.
Print Assumptions C107_reopen_refuted.

(** * PropsOver: adding a term that begins like the old ones (C109). *)
From Coq Require Import Sorting.Sorted.
From Verif Require Import Base Spec ModelHash ModelDawg ModelSerial SpecDawg SpecQuery TreeProofs HeapProofs
  BuildProofs BuildProofs2 IterProofs DawgProofs PropsDawg SpecResume ResumeProofs OverProofs.
From Verif Require QueryFacts SizeProofs ReplaceProofs PropsQuery PropsReopen.

Lemma only_term : forall r w, tin (trie [r]) w = true <-> w = r.
Proof. intros r w. rewrite tin_trie. cbn. split; [intros [E|[]]|intros E; left]; auto. Qed.

Lemma tin_in : forall terms w, tin (trie terms) w = true <-> In w terms.
Proof. intros. apply tin_trie. Qed.

(** ** C109: init(), one term, finish(), where what is stored of the term begins
    with the character [c] that old terms begin with.  The node the old ones shared
    after [c] is deleted: they are no longer found, and lookups that come to the
    node on another way read it all the same. *)
Theorem C109_lookups : forall alloc terms h b p c r r' q, allocator alloc ->
  dictionary terms h (b_dawg b) -> b_prev b = p ++ r' -> differ (c :: r) r' -> ~ lex_lt (p ++ c :: r) (b_prev b) ->
  path h (d_root (b_dawg b)) [c] q ->
  exists h' b', runs_to (fun fuel => continued fuel alloc h b [Enter (p ++ c :: r)]) ([true], h', b') /\
    d_size (b_dawg b') = (N.of_nat (length terms + 1) mod W)%N /\
    (forall v, (N.of_nat (length (c :: v)) <= INT_MAX)%N ->
       exists answer, contains h' (b_dawg b') (c :: v) = Ok answer /\ (answer = true <-> v = r)) /\
    (forall w, (N.of_nat (length w) <= INT_MAX)%N -> (forall v, w <> c :: v) ->
       (forall u v, w = u ++ v -> ~ path h (d_root (b_dawg b)) u q) ->
       exists answer, contains h' (b_dawg b') w = Ok answer /\ (answer = true <-> In w terms)) /\
    (forall u v, u <> [c] -> path h (d_root (b_dawg b)) u q -> contains h' (b_dawg b') (u ++ v) = UB).
Proof.
  intros alloc terms h b p c r r' q A D Ep Di NL P.
  destruct (QueryFacts.dictionary_unf _ _ _ D) as (U & _ & S).
  destruct (over_ok alloc h b terms p c r r' q A U Ep Di NL P) as (h' & b' & x & w & R & Er & Es & _ & V).
  set (root := d_root (b_dawg b)) in *. destruct (b_dawg b') as [root' size'] eqn:Eb. cbn [d_root d_size] in *. subst root'.
  exists h', b'. rewrite Eb. cbn [d_size]. split; [auto|]. split; [|split; [|split]].
  - rewrite Es, S. unfold wadd. rewrite N.add_mod_idemp_l by (unfold W; lia). f_equal. lia.
  - intros v L. eexists. split; [eapply over_new_term; eauto|]. apply only_term.
  - intros v L Nc Nq. exists (tin (trie terms) v). split; [|apply tin_trie].
    erewrite over_old_term; eauto. apply contains_ok; auto.
  - intros u v Nu Pu. eapply over_lost_term; eauto.
Qed.
Print Assumptions C109_lookups.

Lemma where_led : forall terms h root c v, unf h root (trie terms) -> In (c :: v) terms -> exists q, path h root [c] q.
Proof.
  intros terms h root c v U I. apply tin_in in I. apply (tree_path _ _ _ _ U) in I. destruct I as (x & n & P & _ & _).
  inversion P as [|? m ? z ? ? G J P']; subst. exists z. econstructor; eauto. constructor.
Qed.

Lemma same_node : forall terms h root u v q, unf h root (trie terms) -> path h root u q -> path h root v q ->
  forall x, In (u ++ x) terms <-> In (v ++ x) terms.
Proof.
  assert (X : forall terms h root u q, unf h root (trie terms) -> path h root u q -> forall x, In (u ++ x) terms <-> accepts_from h q x).
  { intros terms h root u q U P x. rewrite <- tin_in, <- (accepts_tin _ _ _ _ U). split.
    - intros (y & n & Py & G & F). destruct (ReplaceProofs.path_split _ _ _ _ _ Py) as (z & P1 & P2).
      assert (z = q); [|subst z; exists y, n; auto]. eapply SizeProofs.path_det; eauto.
    - intros (y & n & Py & G & F). exists y, n. split; auto. eapply path_app; eauto. }
  intros terms h root u v q U Pu Pv x. rewrite (X _ _ _ _ _ U Pu), (X _ _ _ _ _ U Pv). tauto.
Qed.

(** If after no other beginning the old terms go on just as they do after [c], the
    dictionary is as good as before but for the terms that begin with [c]: these are
    still counted.  When it is destroyed, the nodes that only they used are left
    behind, all but the first. *)
Theorem C109_alone : forall alloc terms h b p c r r' v, allocator alloc ->
  dictionary terms h (b_dawg b) -> b_prev b = p ++ r' -> differ (c :: r) r' -> ~ lex_lt (p ++ c :: r) (b_prev b) ->
  In (c :: v) terms ->
  (forall u, u <> [c] -> ~ (forall x, In (u ++ x) terms <-> In (c :: x) terms)) ->
  exists h' b', runs_to (fun fuel => continued fuel alloc h b [Enter (p ++ c :: r)]) ([true], h', b') /\
    d_size (b_dawg b') = (N.of_nat (length terms + 1) mod W)%N /\
    (forall w, (N.of_nat (length w) <= INT_MAX)%N -> exists answer, contains h' (b_dawg b') w = Ok answer /\
       (answer = true <-> w = c :: r \/ In w terms /\ forall v, w <> c :: v)) /\
    exists h2 q, runs_to (fun fuel => destroy fuel h' b') h2 /\ path h (d_root (b_dawg b)) [c] q /\ hget h2 q = None /\
      (forall w y, path h (d_root (b_dawg b)) w y -> (forall v, w <> c :: v) -> hget h2 y = None) /\
      (forall y, y <> q -> (forall w, path h (d_root (b_dawg b)) w y -> exists v, w = c :: v) -> hget h2 y = hget h y).
Proof.
  intros alloc terms h b p c r r' v A D Ep Di NL I Al.
  destruct (QueryFacts.dictionary_unf _ _ _ D) as (U & _ & S).
  destruct (where_led _ _ _ _ _ U I) as (q & P).
  destruct (over_ok alloc h b terms p c r r' q A U Ep Di NL P) as (h' & b' & x & w & R & Er & Es & Ew & V).
  assert (Sole : forall u, path h (d_root (b_dawg b)) u q -> u = [c]).
  { intros u Pu. destruct (list_eq_dec Ascii.ascii_dec u [c]) as [|N]; auto. destruct (Al u N). apply (same_node _ _ _ _ [c] q U Pu P). }
  destruct (C109_lookups alloc terms h b p c r r' q A D Ep Di NL P) as (h1 & b1 & R1 & Z & L1 & L2 & _).
  pose proof (runs_to_det _ _ _ _ R R1) as X. injection X as <- <-.
  exists h', b'. split; [auto|]. split; [auto|]. split.
  - intros s L. destruct s as [|d s].
    + destruct (L2 [] L) as (a & E & Ia).
      * discriminate.
      * intros u u' E Pu. destruct u; [|discriminate]. apply Sole in Pu. discriminate.
      * exists a. split; auto. rewrite Ia. split; [intros J; right; split; [auto|discriminate]|intros [J|[J _]]; [discriminate|auto]].
    + destruct (Ascii.ascii_dec d c) as [->|N].
      * destruct (L1 s L) as (a & E & Ia). exists a. split; auto. rewrite Ia. split; [intros ->; auto|].
        intros [J|[_ J]]; [congruence|]. destruct (J s). auto.
      * destruct (L2 (d :: s) L) as (a & E & Ia).
        -- congruence.
        -- intros u u' E Pu. apply Sole in Pu. subst u. cbn in E. congruence.
        -- exists a. split; auto. rewrite Ia. split; [intros J; right; split; [auto|congruence]|intros [J|[J _]]; [congruence|auto]].
  - destruct (over_destroyed _ _ _ _ _ _ _ _ _ U P V Sole b' w Er Ew eq_refl) as (h2 & Rd & Hq & H1 & H2).
    exists h2, q. auto.
Qed.
Print Assumptions C109_alone.

(** In a dictionary that sorted_dawg has made, the terms go on after another
    beginning just as they do after [c]: looking up anything that begins so, and
    destroying the dictionary, read the deleted node. *)
Theorem C109_shared : forall alloc alloc' h0 terms h b p c r r' u v, allocator alloc -> allocator alloc' ->
  runs_to (fun fuel => sorted_dawg fuel alloc h0 terms) (h, Some b) ->
  last terms [] = p ++ r' -> differ (c :: r) r' -> ~ lex_lt (p ++ c :: r) (last terms []) ->
  In (c :: v) terms -> u <> [c] -> (forall x, In (u ++ x) terms <-> In (c :: x) terms) ->
  exists h' b', runs_to (fun fuel => continued fuel alloc' h b [Enter (p ++ c :: r)]) ([true], h', b') /\
    (forall x, contains h' (b_dawg b') (u ++ x) = UB) /\
    exists enough, forall fuel, enough <= fuel -> destroy fuel h' b' = UB.
Proof.
  intros alloc alloc' h0 terms h b p c r r' u v A A' R0 Ep Di NL I Nu Co.
  assert (D : dictionary terms h (b_dawg b)) by exact (dictionary_sorted _ _ _ _ _ A R0).
  pose proof (sorted_dawg_prev _ _ _ _ _ A R0) as Pv. rewrite <- Pv in Ep, NL.
  destruct (QueryFacts.dictionary_unf _ _ _ D) as (U & _ & S).
  destruct (where_led _ _ _ _ _ U I) as (q & P).
  assert (Pu : path h (d_root (b_dawg b)) u q).
  { pose proof I as J. apply Co in J. apply tin_in in J. apply (tree_path _ _ _ _ U) in J. destruct J as (x & n & Px & _ & _).
    destruct (ReplaceProofs.path_split _ _ _ _ _ Px) as (z & P1 & _).
    destruct (C16_minimal _ _ _ _ _ A R0) as (Mi & _). enough (q = z) by (subst z; exact P1). apply Mi; [exists [c]; exact P|exists u; exact P1|].
    assert (Acc : forall s y, path h (d_root (b_dawg b)) s y -> forall x, In (s ++ x) terms <-> accepts_from h y x).
    { intros s y Ps x0. rewrite <- tin_in, <- (accepts_tin _ _ _ _ U). split.
      - intros (y0 & n0 & Py & G & F). destruct (ReplaceProofs.path_split _ _ _ _ _ Py) as (z0 & P2 & P3).
        assert (z0 = y); [|subst z0; exists y0, n0; auto]. eapply SizeProofs.path_det; eauto.
      - intros (y0 & n0 & Py & G & F). exists y0, n0. split; auto. eapply path_app; eauto. }
    intros x0. rewrite <- (Acc _ _ P), <- (Acc _ _ P1). rewrite Co. reflexivity. }
  destruct (over_ok alloc' h b terms p c r r' q A' U Ep Di NL P) as (h' & b' & x & w & R & Er & Es & Ew & V).
  exists h', b'. split; [auto|]. split.
  - intros s. destruct (b_dawg b') as [root' size']. cbn [d_root] in Er. subst root'. eapply over_lost_term; eauto.
  - eapply over_dangling; eauto.
Qed.
Print Assumptions C109_shared.

(** ** Examples *)

(** "cc" is added to the loaded "a", "ab", "cab", "cb": "cab" and "cb" are lost, and a
    node of theirs stays behind. *)
Example C109_alone_case : dictionary some_terms PropsReopen.loaded_heap (b_dawg PropsReopen.loaded) /\
  b_prev PropsReopen.loaded = [] ++ [] /\ differ (lit "cc") [] /\ ~ lex_lt ([] ++ lit "cc") (b_prev PropsReopen.loaded) /\
  In ("c"%char :: sab) some_terms /\
  (forall u, u <> ["c"%char] -> ~ (forall x, In (u ++ x) some_terms <-> In ("c"%char :: x) some_terms)) /\
  exists h b, continued 20 bump PropsReopen.loaded_heap PropsReopen.loaded [Enter (lit "cc")] = Ok ([true], h, b) /\
    contains h (b_dawg b) sab = Ok true /\ contains h (b_dawg b) scab = Ok false /\ contains h (b_dawg b) scb = Ok false /\
    contains h (b_dawg b) (lit "cc") = Ok true /\
    exists h2, destroy 20 h b = Ok h2 /\ exists n, hget h2 5%N = Some n.
Proof.
  split; [exact PropsReopen.loaded_dictionary|]. split; [reflexivity|]. split; [exact Logic.I|].
  split; [intros H; apply str_ltb_lex in H; vm_compute in H; discriminate|]. split; [cbn; auto|]. split.
  - intros u N E. pose proof (proj2 (E sab) ltac:(cbn; auto)) as J.
    destruct J as [J|[J|[J|[J|[]]]]].
    + apply (f_equal (@length _)) in J. rewrite app_length in J. cbn in J. lia.
    + destruct u as [|a u]; [|apply (f_equal (@length _)) in J; rewrite app_length in J; cbn in J; lia].
      pose proof (proj1 (E sa) ltac:(cbn; auto)) as K. cbn in K. intuition discriminate.
    + destruct u as [|a [|a' u]]; [discriminate| |apply (f_equal (@length _)) in J; rewrite app_length in J; cbn in J; lia].
      injection J as <-. congruence.
    + destruct u as [|a u]; [discriminate|apply (f_equal (@length _)) in J; rewrite app_length in J; cbn in J; lia].
  - eexists _, _. run. run. run. run. run. eexists. run. eexists. vm_compute. reflexivity.
Qed.

(** "cc" is added to "ab", "cb": the node after "c" was the one after "a". *)
Example C109_shared_case : exists h b, sorted_dawg 20 bump [] [sab; scb] = Ok (h, Some b) /\
  last [sab; scb] [] = lit "c" ++ sb /\ differ (lit "c") sb /\ ~ lex_lt (lit "c" ++ lit "c") (last [sab; scb] []) /\
  In ("c"%char :: sb) [sab; scb] /\ (forall x, In (sa ++ x) [sab; scb] <-> In ("c"%char :: x) [sab; scb]) /\
  exists h' b', continued 20 bump h b [Enter (lit "cc")] = Ok ([true], h', b') /\ contains h' (b_dawg b') sab = UB.
Proof.
  eexists _, _. run. split; [reflexivity|]. split; [cbn; discriminate|].
  split; [intros H; apply str_ltb_lex in H; vm_compute in H; discriminate|]. split; [cbn; auto|]. split.
  - intros x. cbn. split; intros [E|[E|[]]]; try discriminate; injection E as <-; auto.
  - eexists _, _. run. vm_compute. reflexivity.
Qed.

(** * Property C104: changing a dictionary through its nodes. *)
From Coq Require Import Sorting.Sorted.
From Verif Require Import Base Spec ModelTransducer ModelDawg ModelQuery SpecDawg SpecQuery SpecSnapshot SpecLimits SpecGraft
  TreeProofs HeapProofs IterProofs BuildProofs2 SizeProofs QueryFacts RoundProofs GraftProofs ReplaceProofs PropsDawg PropsQuery PropsSaved PropsRound.
From Verif Require PropsForeign.
Local Open Scope nat_scope.

Lemma unf_answers : forall h d t term, unf h (d_root d) t -> (forall w, accepts_from h (d_root d) w <-> term w) -> answers_for term h d.
Proof.
  intros h d t term U Ac. pose proof (proj1 (HeapProofs.unf_tsorted h) _ _ U) as So.
  assert (Ti : forall w, tin t w = true <-> term w) by (intros w; rewrite <- (accepts_tin _ _ _ w U); apply Ac). constructor.
  - intros w L. exists (tin t w). split; [exact (contains_ok h d t w U L)|apply Ti].
  - intros R rt alg x n Lx Ln Ls. destruct (round_query rt h alg x n (d_root d) (unf_solid _ _ _ U) Lx Ln Ls) as (answers & Li & S & Y & _). exists answers. split; [|split; [exact S|exact Y]].
    eapply lists_ext; [|exact Li]. exact Ac.
  - intros Ls. exists (words t). split; [apply StronglySorted_sorted_by, words_sorted, So|]. split; [intros w; rewrite words_In by auto; apply Ti|].
    exists (tsize t + N.to_nat (d_size d) + 2). intros fuel Hf.
    rewrite (iterate_ok fuel h _ t (N.to_nat (d_size d))); auto; try lia.
    f_equal. destruct (words t) as [|w l]; cbn [next_value tl].
    + rewrite (PropsForeign.emitted_firstn _ (N.to_nat (d_size d))) by lia. cbn [app List.last]. change ([] :: repeat [] ?n) with (repeat (@nil ascii) (S n)).
      rewrite !PropsForeign.firstn_repeat_le by lia. reflexivity.
    + rewrite (PropsForeign.emitted_firstn _ (N.to_nat (d_size d))) by lia. reflexivity.
Qed.

Lemma dictionary_accepts : forall terms h d, dictionary terms h d -> forall w, accepts_from h (d_root d) w <-> In w terms.
Proof. intros terms h d D w. destruct (dictionary_unf _ _ _ D) as (U & _). rewrite (accepts_tin _ _ _ w U). apply tin_trie. Qed.

(** Which prefixes lead to a node. *)
Lemma endings_path : forall terms h d v q, dictionary terms h d -> terms <> [] -> path h (d_root d) v q -> forall u, path h (d_root d) u q <-> same_endings terms u v.
Proof.
  intros terms h d v q D NE Pv. destruct (dictionary_unf _ _ _ D) as (U & _). pose proof (dictionary_accepts _ _ _ D) as Ac.
  assert (Via : forall u p s, path h (d_root d) u p -> (In (u ++ s) terms <-> accepts_from h p s)).
  { intros u p s Pu. rewrite <- Ac. split.
    - intros (x & n & P & G & F). exists x, n. split; [|auto].
      assert (Sp : exists y, path h (d_root d) u y /\ path h y s x).
      { clear -P. revert P. generalize (d_root d). induction u as [|c u IH]; intros r P; [exists r; split; [constructor|exact P]|]. cbn [app] in P. inversion P as [|? m ? z ? ? G I P']; subst.
        destruct (IH z P') as (y & P1 & P2). exists y. split; [econstructor; eauto|exact P2]. }
      destruct Sp as (y & P1 & P2). rewrite (path_det h u (d_root d) _ p y U Pu P1). exact P2.
    - intros (x & n & P & GF). exists x, n. split; [eapply path_app; eauto|exact GF]. }
  intros u. split; [intros Pu s; rewrite (Via u q s Pu), (Via v q s Pv); reflexivity|]. intros S.
  assert (Ne : nonempty (trie terms)) by (destruct terms as [|w ws]; [congruence|]; exists w; apply tin_trie; now left).
  destruct (path_useful _ _ _ _ _ Pv U (trie_useful terms) Ne) as (tq & Uq & _ & (s & Ts)).
  assert (In (u ++ s) terms) as I by (apply S, (Via v q s Pv), (accepts_tin _ _ _ s Uq), Ts).
  apply Ac in I. destruct I as (x & n & P & _).
  assert (Sp : exists y, path h (d_root d) u y).
  { clear -P. revert P. generalize (d_root d). induction u as [|c u IH]; intros r P; [exists r; constructor|]. cbn [app] in P. inversion P as [|? m ? z ? ? G I P']; subst. destruct (IH z P') as (y & P1). exists y. econstructor; eauto. }
  destruct Sp as (y & Pu). assert (y = q); [|subst y; exact Pu].
  apply (C95_minimal terms h d y q D); [exists u; exact Pu|exists v; exact Pv|]. intros w. rewrite <- (Via u y w Pu), <- (Via v q w Pv). apply S.
Qed.

Lemma dictionary_no_return : forall terms h d, dictionary terms h d -> forall p w, reach h (d_root d) p -> path h p w p -> w = [].
Proof. intros terms h d D p w R P. destruct (dictionary_unf _ _ _ D) as (U & _). destruct (unf_reach h _ p R _ U) as (t & Up & _). exact (unf_no_return _ _ _ _ Up P). Qed.

Lemma last_edge : forall h root t v c q y n, unf h root t -> path h root v q -> path h root (v ++ [c]) y -> hget h q = Some n -> In (c, y) (nedges n).
Proof.
  intros h root t v c q y n U Pv Py G. destruct (path_split _ _ _ _ _ Py) as (z & P1 & P2). rewrite (path_det _ _ _ _ _ _ U P1 Pv) in P2. inversion P2 as [|? m ? x ? ? G2 I P3]; subst. inversion P3; subst. congruence.
Qed.

(** A new node is linked to the node that [v] leads to, with a label that no edge has
    there.  If the new node is final, this adds a term for every prefix that can be
    completed in the same ways as [v], not only [v] with the label.  The number of
    terms that the dictionary knows stays. *)
Theorem C104_link : forall alloc terms h d v q c final, allocator alloc -> dictionary terms h d -> terms <> [] ->
  path h (d_root d) v q -> (forall s, ~ In (v ++ c :: s) terms) ->
  exists h2, add_edge (hset h (alloc h) (Node final [])) q c (alloc h) = Ok h2 /\
    answers_for (fun w => In w terms \/ final = true /\ exists u, w = u ++ [c] /\ same_endings terms u v) h2 d /\
    (forall p, ~ reach h (d_root d) p -> p <> alloc h -> hget h2 p = hget h p) /\
    exists h3, runs_to (fun fuel => destroy_dawg fuel h2 d) h3 /\
      (forall p, reach h (d_root d) p \/ p = alloc h -> hget h3 p = None) /\ (forall p, ~ reach h (d_root d) p -> p <> alloc h -> hget h3 p = hget h p).
Proof.
  intros alloc terms h d v q c final A D NE Pv Nc. destruct (dictionary_unf _ _ _ D) as (U & _). pose proof (unf_solid _ _ _ U) as So.
  destruct (So v q Pv) as (Nq & n & Gq & Sq). destruct (A h) as (Nr & Gr). set (r := alloc h) in *. assert (Rq : reach h (d_root d) q) by (exists v; exact Pv).
  assert (Ne : nonempty (trie terms)) by (destruct terms as [|w ws]; [congruence|]; exists w; apply tin_trie; now left).
  assert (En : edge_get (nedges n) c = None).
  { destruct (edge_get (nedges n) c) as [y|] eqn:E; [|reflexivity]. exfalso. apply edge_get_In in E. assert (Py : path h (d_root d) (v ++ [c]) y) by (eapply path_app; [exact Pv|econstructor; [exact Gq|exact E|constructor]]).
    destruct (path_useful _ _ _ _ _ Py U (trie_useful terms) Ne) as (ty & Uy & _ & (s & Ts)). apply (accepts_tin _ _ _ s Uy) in Ts. destruct Ts as (x & m & P & GF). apply (Nc s).
    apply (dictionary_accepts _ _ _ D). replace (v ++ c :: s) with ((v ++ [c]) ++ s) by (rewrite <- app_assoc; reflexivity). exists x, m. split; [eapply path_app; eauto|exact GF]. }
  exists (linked h q r n final c). split; [exact (linked_run h (d_root d) q r n final c So Rq Gq En Gr Nq)|].
  pose proof (linked_solid h (d_root d) q r n final c So Rq Gq En Nr Gr) as S2.
  destruct (short_unf (linked h q r n final c) (height (trie terms)) (d_root d) S2) as (t2 & U2).
  { intros w x P. apply (linked_path h (d_root d) q r n final c So Rq Gq En Gr) in P; [|apply reach_refl]. destruct P as [P|(u & -> & P & _)]; [pose proof (unf_path_short _ _ _ _ _ U P); lia|].
    pose proof (unf_path_short _ _ _ _ _ U P). rewrite app_length. cbn [length]. lia. }
  assert (Ot : forall p, ~ reach h (d_root d) p -> p <> r -> hget (linked h q r n final c) p = hget h p).
  { intros p Np Nx. unfold linked. rewrite hget_hset_other by (intros ->; contradiction). now rewrite hget_hset_other by exact Nx. }
  split; [|split; [exact Ot|]].
  - apply (unf_answers _ _ _ _ U2). intros w. rewrite (linked_accepts h (d_root d) q r n final c So Rq Gq En Gr w), (dictionary_accepts _ _ _ D w).
    split; (intros [X|(Eb & u & -> & P)]; [now left|right; split; [exact Eb|]; exists u; split; [reflexivity|]; now apply (endings_path terms h d v q D NE Pv)]).
  - destruct (destroy_dawg_all _ d _ U2) as (h3 & E3 & D1 & D2). exists h3. split; [exists (tsize t2 + 2); exact E3|].
    assert (Rc := linked_reach h (d_root d) q r n final c So Rq Gq En Gr). split.
    + intros p X. apply D1, Rc. exact X.
    + intros p X Y. rewrite D2 by (rewrite Rc; tauto). exact (Ot p X Y).
Qed.

(** The label leads somewhere already: the node there is deleted, and only that one.
    If nothing else leads to it, the dictionary loses the terms that went along that
    edge.  What was behind it and nowhere else is never deleted. *)
Theorem C104_replace : forall alloc terms h d v q y c final, allocator alloc -> dictionary terms h d -> terms <> [] ->
  path h (d_root d) v q -> path h (d_root d) (v ++ [c]) y -> (forall u, same_endings terms u (v ++ [c]) -> exists u1, u = u1 ++ [c] /\ same_endings terms u1 v) ->
  exists h2, add_edge (hset h (alloc h) (Node final [])) q c (alloc h) = Ok h2 /\
    answers_for (fun w => In w terms /\ ~ behind terms v c w \/ final = true /\ exists u, w = u ++ [c] /\ same_endings terms u v) h2 d /\
    exists h3, runs_to (fun fuel => destroy_dawg fuel h2 d) h3 /\
      (forall p, (exists w, path h (d_root d) w p /\ ~ behind terms v c w) \/ p = y \/ p = alloc h -> hget h3 p = None) /\
      (forall p, (forall w, path h (d_root d) w p -> behind terms v c w) -> p <> y -> p <> alloc h -> hget h3 p = hget h p).
Proof.
  intros alloc terms h d v q y c final A D NE Pv Py Un. destruct (dictionary_unf _ _ _ D) as (U & _). pose proof (unf_solid _ _ _ U) as So.
  destruct (So v q Pv) as (Nq & n & Gq & Sq). destruct (So _ y Py) as (Ny & _). destruct (A h) as (Nr & Gr). set (r := alloc h) in *. assert (Rq : reach h (d_root d) q) by (exists v; exact Pv).
  pose proof (dictionary_no_return _ _ _ D) as Ac. pose proof (endings_path terms h d v q D NE Pv) as Eq.
  assert (Ec : In (c, y) (nedges n)) by (exact (last_edge _ _ _ _ _ _ _ _ U Pv Py Gq)).
  assert (Un' : forall p m e, reach h (d_root d) p -> hget h p = Some m -> In (e, y) (nedges m) -> p = q /\ e = c).
  { intros p m e (w & Pw) G I. assert (X : path h (d_root d) (w ++ [e]) y) by (eapply path_app; [exact Pw|econstructor; [exact G|exact I|constructor]]).
    apply (endings_path terms h d (v ++ [c]) y D NE Py) in X. destruct (Un _ X) as (u1 & E & S). apply app_inj_tail in E. destruct E as (-> & ->). split; [|reflexivity]. apply Eq in S. exact (path_det _ _ _ _ _ _ U Pw S). }
  assert (Vi : forall w, via h q c (d_root d) w <-> behind terms v c w) by (intros w; split; intros (u & s & E & P); exists u, s; split; auto; now apply Eq).
  exists (replaced h q r y n final c). split; [exact (replaced_run h (d_root d) q r y n final c So Ac Rq Gq Ec Gr Nq Ny)|].
  destruct (short_unf (replaced h q r y n final c) (height (trie terms)) (d_root d) (cut_solid h (d_root d) q r y n final c So Ac Rq Gq Ec Nr Gr Un')) as (t2 & U2).
  { intros w x P. apply (cut_path h (d_root d) q r y n final c So Ac Rq Gq Ec Gr Un') in P. destruct P as [(P & _)|(u & -> & P & _)]; [pose proof (unf_path_short _ _ _ _ _ U P); lia|].
    pose proof (unf_path_short _ _ _ _ _ U P). rewrite app_length. cbn [length]. lia. }
  split.
  - apply (unf_answers _ _ _ _ U2). intros w. rewrite (cut_accepts h (d_root d) q r y n final c So Ac Rq Gq Ec Gr Un' w), (dictionary_accepts _ _ _ D w), (Vi w).
    split; (intros [X|(Eb & u & -> & P)]; [now left|right; split; [exact Eb|]; exists u; split; [reflexivity|]; now apply Eq]).
  - destruct (destroy_dawg_all _ d _ U2) as (h3 & E3 & D1 & D2). exists h3. split; [exists (tsize t2 + 2); exact E3|].
    assert (Rc := cut_reach h (d_root d) q r y n final c So Ac Rq Gq Ec Gr Un').
    assert (Yc : ~ reach (replaced h q r y n final c) (d_root d) y).
    { intros R. apply Rc in R. destruct R as [(w & P & NV)|E]; [|destruct (So _ y Py) as (_ & m & G & _); congruence]. apply NV. exact (only_via h (d_root d) q y n c Ac Rq Gq Ec Un' w P). }
    split.
    + intros p [(w & P & NB)|[->| ->]].
      * apply D1, Rc. left. exists w. split; [exact P|]. rewrite Vi. exact NB.
      * rewrite D2 by exact Yc. exact (replaced_gone h (d_root d) q r y n final c Ac Rq Gq Ec).
      * apply D1, Rc. now right.
    + intros p B Np Nx. rewrite D2.
      * unfold replaced. rewrite hget_hset_other. { rewrite hget_hdel, (proj2 (N.eqb_neq _ _) Np). now rewrite hget_hset_other by exact Nx. }
        intros ->. destruct (B v Pv) as (u & s & E & S). apply Eq in S.
        assert (P2 : path h q (c :: s) q).
        { pose proof Pv as Pv'. rewrite E in Pv'. destruct (path_split _ _ _ _ _ Pv') as (z & P1 & P2). rewrite (path_det _ _ _ _ _ _ U P1 S) in P2. exact P2. }
        apply Ac in P2; [discriminate P2|exact Rq].
      * intros R. apply Rc in R. destruct R as [(w & P & NV)|E]; [|contradiction]. apply NV, Vi, B, P.
Qed.

(** If another prefix leads to the deleted node, too, looking that prefix up and
    deleting the dictionary read freed memory. *)
Theorem C104_shared : forall alloc terms h d v q y c final u, allocator alloc -> dictionary terms h d -> terms <> [] ->
  path h (d_root d) v q -> path h (d_root d) (v ++ [c]) y -> same_endings terms u (v ++ [c]) -> ~ (exists u1, u = u1 ++ [c] /\ same_endings terms u1 v) ->
  exists h2, add_edge (hset h (alloc h) (Node final [])) q c (alloc h) = Ok h2 /\
    ((N.of_nat (length u) <= 2147483647)%N -> contains h2 d u = UB) /\ runs_into_ub (fun fuel => destroy_dawg fuel h2 d).
Proof.
  intros alloc terms h d v q y c final u A D NE Pv Py Su NL. destruct (dictionary_unf _ _ _ D) as (U & _). pose proof (unf_solid _ _ _ U) as So.
  destruct (So v q Pv) as (Nq & n & Gq & Sq). destruct (So _ y Py) as (Ny & _). destruct (A h) as (Nr & Gr). set (r := alloc h) in *. assert (Rq : reach h (d_root d) q) by (exists v; exact Pv).
  pose proof (dictionary_no_return _ _ _ D) as Ac. pose proof (endings_path terms h d v q D NE Pv) as Eq.
  assert (Ec : In (c, y) (nedges n)) by (exact (last_edge _ _ _ _ _ _ _ _ U Pv Py Gq)).
  apply (endings_path terms h d (v ++ [c]) y D NE Py) in Su.
  assert (NV : ~ via h q c (d_root d) u).
  { intros (u1 & s & -> & P1). assert (Ps : path h y s y).
    { destruct (path_split _ _ _ _ _ Su) as (z & P2 & P3). rewrite (path_det _ _ _ _ _ _ U P2 P1) in P3. inversion P3 as [|? m ? x ? ? G I P4]; subst. assert (m = n) by congruence. subst m.
      rewrite (one_edge h (d_root d) So q n c x y Rq Gq I Ec) in P4. exact P4. }
    apply Ac in Ps; [|exists (v ++ [c]); exact Py]. subst s. apply NL. exists u1. split; [reflexivity|]. now apply Eq. }
  pose proof (replaced_dangles h (d_root d) q r y n final c So Ac Rq Gq Ec Gr u Su NV) as P.
  pose proof (replaced_gone h (d_root d) q r y n final c Ac Rq Gq Ec) as Gone.
  assert (Rd : read (replaced h q r y n final c) y = UB) by (unfold read; rewrite (proj2 (N.eqb_neq _ _) Ny), Gone; reflexivity).
  assert (Nn : forall w x, path (replaced h q r y n final c) (d_root d) w x -> x <> null).
  { intros w x Px. apply (replaced_path h (d_root d) q r y n final c So Ac Rq Gq Ec Gr) in Px; [|apply reach_refl]. destruct Px as [(Px & _)|(_ & _ & _ & ->)]; [|exact Nr]. exact (proj1 (So w x Px)). }
  exists (replaced h q r y n final c). split; [exact (replaced_run h (d_root d) q r y n final c So Ac Rq Gq Ec Gr Nq Ny)|]. split.
  - intros L. unfold contains. rewrite (contains_gone _ y); [|intros x w Px _; exact (Nn w x Px)|exact P| |exact L].
    + cbn [rbind]. rewrite (proj2 (N.eqb_neq _ _) Ny), Rd. reflexivity.
    + intros w x m Px G. destruct (N.eq_dec x y) as [->|Nx]; [congruence|]. apply (replaced_path h (d_root d) q r y n final c So Ac Rq Gq Ec Gr) in Px; [|apply reach_refl]. destruct Px as [(Px & _)|(_ & _ & _ & ->)].
      * destruct (So w x Px) as (_ & m0 & G0 & _). destruct (replaced_at h (d_root d) q r y n final c So Gq Gr x m0 (ex_intro _ w Px) Nx G0) as (m' & G' & _ & S' & _). congruence.
      * rewrite (replaced_new h (d_root d) q r y n final c So Rq Gq Ec Gr) in G. injection G as <-. constructor.
  - destruct (gone_loop _ _ Rd u (d_root d) P Nn [] [] []) as (N & X). exists N. intros fuel L. unfold destroy_dawg, all_nodes. cbn [app] in X. rewrite X by exact L. reflexivity.
Qed.

(** The node that [v] leads to is marked: then every string that can be completed in
    the same ways as [v] is a term, or is none. *)
Theorem C104_mark : forall terms h d v q final, dictionary terms h d -> terms <> [] -> path h (d_root d) v q ->
  exists h2, set_final h q final = Ok h2 /\
    answers_for (fun w => same_endings terms w v /\ final = true \/ ~ same_endings terms w v /\ In w terms) h2 d /\
    (forall p, p <> q -> hget h2 p = hget h p) /\
    exists h3, runs_to (fun fuel => destroy_dawg fuel h2 d) h3 /\
      (forall p, reach h (d_root d) p -> hget h3 p = None) /\ (forall p, ~ reach h (d_root d) p -> hget h3 p = hget h p).
Proof.
  intros terms h d v q final D NE Pv. destruct (dictionary_unf _ _ _ D) as (U & _). pose proof (unf_solid _ _ _ U) as So. destruct (So v q Pv) as (Nq & n & Gq & Sq).
  exists (remarked h q n final). split; [exact (remarked_run h q n final Gq Nq)|].
  destruct (short_unf (remarked h q n final) (height (trie terms)) (d_root d) (remarked_solid h (d_root d) q n final So Gq)) as (t2 & U2).
  { intros w x P. apply (remarked_path h (d_root d) q n final So Gq) in P; [|apply reach_refl]. pose proof (unf_path_short _ _ _ _ _ U P). lia. }
  assert (Ot : forall p, p <> q -> hget (remarked h q n final) p = hget h p) by (intros p X; unfold remarked; now rewrite hget_hset_other by exact X).
  split; [|split; [exact Ot|]].
  - apply (unf_answers _ _ _ _ U2). intros w. rewrite (remarked_accepts h (d_root d) q n final So Gq w), (dictionary_accepts _ _ _ D w), (endings_path terms h d v q D NE Pv w). reflexivity.
  - destruct (destroy_dawg_all _ d _ U2) as (h3 & E3 & D1 & D2). exists h3. split; [exists (tsize t2 + 2); exact E3|].
    assert (Rc : forall p, reach (remarked h q n final) (d_root d) p <-> reach h (d_root d) p) by (intros p; split; intros (w & P); exists w; apply (remarked_path h (d_root d) q n final So Gq) in P || apply (remarked_path h (d_root d) q n final So Gq); auto using reach_refl). split.
    + intros p X. apply D1, Rc, X.
    + intros p X. rewrite D2 by (rewrite Rc; exact X). apply Ot. intros ->. apply X. exists v. exact Pv.
Qed.

(** ** Cases: in the dictionary of "a", "ab", "cab" and "cb", the node that "ab" leads to
    is that of "cab" and "cb", too. *)
Example C104_case : exists q h2, path example_heap (d_root example_dawg) sab q /\
  add_edge (hset example_heap (bump example_heap) (Node true [])) q "s"%char (bump example_heap) = Ok h2 /\
  contains h2 example_dawg (lit "abs") = Ok true /\ contains h2 example_dawg (lit "cabs") = Ok true /\ contains h2 example_dawg (lit "cbs") = Ok true /\ contains h2 example_dawg (lit "as") = Ok false /\
  iterate 40 h2 example_dawg = Ok [sa; sab; scb; lit "abs"] /\
  answers_for (fun w => In w some_terms \/ true = true /\ exists u, w = u ++ [("s"%char)] /\ same_endings some_terms u sab) h2 example_dawg.
Proof.
  assert (P : exists q, path example_heap (d_root example_dawg) sab q).
  { eexists. econstructor; [vm_compute; reflexivity|left; reflexivity|]. econstructor; [vm_compute; reflexivity|left; reflexivity|]. constructor. }
  destruct P as (q & P). destruct (C104_link bump some_terms example_heap example_dawg sab q "s"%char true bump_allocator example_dictionary) as (h2 & E & An & _); [discriminate|exact P| |].
  { intros s [X|[X|[X|[X|[]]]]]; discriminate X. }
  exists q, h2. split; [exact P|]. split; [exact E|].
  assert (Eq : q = 3%N).
  { assert (P2 : path example_heap (d_root example_dawg) sab 3%N) by (econstructor; [vm_compute; reflexivity|left; reflexivity|]; econstructor; [vm_compute; reflexivity|left; reflexivity|]; constructor).
    destruct (dictionary_unf _ _ _ example_dictionary) as (U & _). exact (path_det _ _ _ _ _ _ U P P2). }
  subst q. vm_compute in E. injection E as <-. do 5 (split; [vm_compute; reflexivity|]). exact An.
Qed.

Example C104_mark_case : exists q h2, path example_heap (d_root example_dawg) sab q /\ set_final example_heap q false = Ok h2 /\
  contains h2 example_dawg sab = Ok false /\ contains h2 example_dawg scab = Ok false /\ contains h2 example_dawg sa = Ok true /\
  iterate 40 h2 example_dawg = Ok [sa; sa; sa; sa].
Proof.
  exists 3%N. eexists. split; [econstructor; [vm_compute; reflexivity|left; reflexivity|]; econstructor; [vm_compute; reflexivity|left; reflexivity|]; constructor|].
  split; [vm_compute; reflexivity|]. repeat (split; [vm_compute; reflexivity|]). vm_compute. reflexivity.
Qed.

(** Linking at "a" with 'b' deletes the node that "cab" and "cb" lead to; linking at the
    root with 'c' loses "cab" and "cb" only. *)
Example C104_shared_case : exists q h2, path example_heap (d_root example_dawg) sa q /\
  add_edge (hset example_heap (bump example_heap) (Node true [])) q "b"%char (bump example_heap) = Ok h2 /\
  contains h2 example_dawg sab = Ok true /\ contains h2 example_dawg scab = UB /\ contains h2 example_dawg scb = UB /\ runs_into_ub (fun fuel => destroy_dawg fuel h2 example_dawg).
Proof.
  assert (P : exists q y, path example_heap (d_root example_dawg) sa q /\ path example_heap (d_root example_dawg) (sa ++ [("b"%char)]) y).
  { do 2 eexists. split; [econstructor; [vm_compute; reflexivity|left; reflexivity|constructor]|]. econstructor; [vm_compute; reflexivity|left; reflexivity|]. econstructor; [vm_compute; reflexivity|left; reflexivity|]. constructor. }
  destruct P as (q & y & P & Py).
  destruct (C104_shared bump some_terms example_heap example_dawg sa q y "b"%char true scb bump_allocator example_dictionary) as (h2 & E & Co & De); [discriminate|exact P|exact Py| | |].
  { intros s. cbn. destruct s as [|e s]; intuition congruence. }
  { intros (u1 & E & S). destruct u1 as [|e [|e2 u1]]; [discriminate E| |destruct u1; discriminate E]. injection E as <-. specialize (S []). cbn in S. destruct S as (_ & S). specialize (S (or_introl eq_refl)). intuition discriminate. }
  exists q, h2. split; [exact P|]. split; [exact E|].
  assert (Eq : q = 2%N).
  { assert (P2 : path example_heap (d_root example_dawg) sa 2%N) by (econstructor; [vm_compute; reflexivity|left; reflexivity|constructor]).
    destruct (dictionary_unf _ _ _ example_dictionary) as (U & _). exact (path_det _ _ _ _ _ _ U P P2). }
  subst q. split; [|split; [|split; [apply Co; discriminate|exact De]]]; clear -E; vm_compute in E; injection E as <-; vm_compute; reflexivity.
Qed.

Example C104_replace_case : exists y h2, path example_heap (d_root example_dawg) (lit "c") y /\
  add_edge (hset example_heap (bump example_heap) (Node true [])) (d_root example_dawg) "c"%char (bump example_heap) = Ok h2 /\
  contains h2 example_dawg (lit "c") = Ok true /\ contains h2 example_dawg scab = Ok false /\ contains h2 example_dawg scb = Ok false /\ contains h2 example_dawg sab = Ok true /\
  answers_for (fun w => In w some_terms /\ ~ behind some_terms [] "c"%char w \/ true = true /\ exists u, w = u ++ [("c"%char)] /\ same_endings some_terms u []) h2 example_dawg.
Proof.
  assert (P : exists y, path example_heap (d_root example_dawg) ([] ++ [("c"%char)]) y) by (eexists; econstructor; [vm_compute; reflexivity|right; left; reflexivity|constructor]).
  destruct P as (y & Py).
  assert (Only : forall u, (exists s, In (u ++ s) some_terms) -> In u [[]; sa; sab; lit "c"; lit "ca"; scab; scb]).
  { intros u (s & I). destruct I as [I|[I|[I|[I|[]]]]]; (destruct u as [|c1 [|c2 [|c3 [|c4 u]]]]; try discriminate I; try (injection I; intros; subst)); cbn; auto 10. }
  destruct (C104_replace bump some_terms example_heap example_dawg [] (d_root example_dawg) y "c"%char true bump_allocator example_dictionary) as (h2 & E & An & _); [discriminate|constructor|exact Py| |].
  { intros u S. assert (I := Only u (ex_intro _ (lit "ab") (proj2 (S (lit "ab")) (or_intror (or_intror (or_introl eq_refl)))))).
    assert (Nb : ~ In (u ++ [("b"%char)] ++ [("b"%char)]) some_terms) by (intros X; apply (S (lit "bb")) in X; cbn in X; intuition discriminate).
    pose proof (proj2 (S (lit "b")) (or_intror (or_intror (or_intror (or_introl eq_refl))))) as Ib. pose proof (proj2 (S (lit "ab")) (or_intror (or_intror (or_introl eq_refl)))) as Ia.
    destruct I as [<-|[<-|[<-|[<-|[<-|[<-|[<-|[]]]]]]]]; cbn in Ia, Ib; try (exfalso; clear -Ia Ib; intuition discriminate). exists []. split; [reflexivity|]. intros s. reflexivity. }
  exists y, h2. split; [exact Py|]. split; [exact E|]. split; [|split; [|split; [|split; [|exact An]]]]; clear -E; vm_compute in E; injection E as <-; vm_compute; reflexivity.
Qed.

Print Assumptions C104_link.
Print Assumptions C104_replace.
Print Assumptions C104_shared.
Print Assumptions C104_mark.

(** * Property C105: any further calls on the nodes of a dictionary. *)
From Coq Require Import Sorting.Sorted.
From Verif Require Import Base Spec ModelTransducer ModelDawg ModelQuery ModelSerial ModelHand ModelHandMap SpecDawg SpecQuery SpecSerial SpecSnapshot SpecLimits SpecHand SpecHandMap SpecForeign SpecAlike SpecGraft SpecStory
  TreeProofs HeapProofs SerialProofs BuildProofs2 HandProofs HandMapProofs HandDawgProofs StoryProofs PropsDawg PropsQuery PropsHand PropsHandDawg PropsRound.
From Verif Require QueryFacts RoundProofs SaveRoundProofs ForeignProofs GraftProofs ReplaceProofs PropsGraft.
Local Open Scope nat_scope.

Lemma solid_det : forall h root, RoundProofs.solid h root -> forall w p q r, reach h root p -> path h p w q -> path h p w r -> q = r.
Proof.
  intros h root S. induction w as [|c w IH]; intros p q r R P Q; [inversion P; inversion Q; congruence|].
  inversion P as [|? m1 ? z1 ? ? G1 I1 P1]; subst. inversion Q as [|? m2 ? z2 ? ? G2 I2 P2]; subst. assert (m2 = m1) by congruence. subst m2.
  pose proof R as (v & Pv). destruct (S v p Pv) as (_ & m & G & So). assert (m = m1) by congruence. subst m.
  apply (edge_In_get _ _ _ _ So) in I2. pose proof (edge_In_get _ _ _ _ So I1) as I1'. unfold ptr in *. rewrite I1' in I2. injection I2 as <-. apply (IH z1); auto. eapply reach_step; eauto.
Qed.

Lemma retells_solid : forall h root hist nodes, retells h root hist nodes -> RoundProofs.solid h root.
Proof. intros h root hist nodes Re w q P. destruct (re_there _ _ _ _ Re q (proj2 (re_nodes _ _ _ _ Re q) (ex_intro _ w P))) as (N & n & G & So). split; [exact N|]. exists n. split; [exact G|exact So]. Qed.

Lemma retells_stands : forall h root hist nodes, retells h root hist nodes -> stands (before h nodes) hist h nodes.
Proof.
  intros h root hist nodes Re. pose proof (retells_solid _ _ _ _ Re) as So. destruct Re as [O Ln Ke Ro No Un Th Pa Te].
  assert (Lt : forall x, exists_still hist x -> x < length nodes) by (intros x (L & _); lia).
  constructor; [exact Ln| | |].
  - intros x Ex. destruct (nth_error nodes x) as [p|] eqn:E; [|apply nth_error_None in E; specialize (Lt x Ex); lia]. assert (Ip : In p nodes) by (eapply nth_error_In; eauto).
    destruct (Th p Ip) as (Np & n & G & Sn). exists p, n. split; [reflexivity|]. split; [exact Np|]. split.
    { rewrite before_at. replace (existsb (N.eqb p) nodes) with true; [reflexivity|]. symmetry. apply existsb_exists. exists p. split; [exact Ip|apply N.eqb_refl]. }
    split; [exact G|]. apply No in Ip. destruct Ip as (w & P). pose proof P as D. apply Pa in D. destruct D as (x' & D & E'). assert (x' = x) by (eapply nth_NoDup; eauto). subst x'.
    split; [|split; [exact Sn|]].
    + destruct (finality_made hist x O) as (b & Fb); [specialize (Lt x Ex); lia|]. rewrite Fb. f_equal. specialize (Te w). apply eq_true_iff_eq. split; intros X.
      * destruct (proj2 Te) as (q & m & Pq & Gq & F); [exists x; split; [exact D|congruence]|]. rewrite (solid_det h root So w root q p (reach_refl _ _) Pq P) in Gq. congruence.
      * destruct (proj1 Te) as (y & Dy & Fy); [exists p, n; auto|]. congruence.
    + intros c. assert (Dc : destination hist 0 (w ++ [c]) = target hist x c) by (rewrite destination_app, D; cbn [destination]; now destruct (target hist x c)).
      destruct (target hist x c) as [y|] eqn:T.
      * destruct (nth_error nodes y) as [q|] eqn:Ey.
        2:{ apply nth_error_None in Ey. exfalso. assert (X : exists_still hist y) by (eapply target_kept; eauto). specialize (Lt y X). lia. }
        exists q. split; [reflexivity|]. assert (Pc : path h root (w ++ [c]) q) by (apply Pa; eauto). destruct (ReplaceProofs.path_split _ _ _ _ _ Pc) as (z & P1 & P2).
        rewrite (solid_det h root So w root z p (reach_refl _ _) P1 P) in P2. inversion P2 as [|? m ? r ? ? Gm I P3]; subst. inversion P3; subst. assert (m = n) by congruence. subst m. exact (edge_In_get _ _ _ _ Sn I).
      * destruct (edge_get (nedges n) c) as [q|] eqn:Eg; [|reflexivity]. exfalso. apply edge_get_In in Eg.
        assert (Pc : path h root (w ++ [c]) q) by (eapply path_app; [exact P|econstructor; [exact G|exact Eg|constructor]]). apply Pa in Pc. destruct Pc as (y & Dy & _). congruence.
  - intros x y p _ _ E1 E2. eapply nth_NoDup; eauto.
  - intros p Np. rewrite before_at. destruct (existsb (N.eqb p) nodes) eqn:X; [|reflexivity]. exfalso. apply existsb_exists in X. destruct X as (p' & I & E). apply N.eqb_eq in E. subst p'.
    apply (Np (position nodes p)); [|apply position_at, I]. apply Ke. apply nth_error_Some. rewrite position_at by exact I. discriminate.
Qed.

Lemma some_story : forall h root, RoundProofs.solid h root -> exists hist nodes, retells h root hist nodes.
Proof.
  intros h root S. destruct (retold h root S) as (st & nodes & h0 & O & Er & Ex & St & Ke & No & Un). exists st, nodes. constructor; auto.
  - exact (st_len _ _ _ _ St).
  - intros q I. apply No in I. destruct I as (w & P). exact (S w q P).
  - intros w q. exact (hand_path h0 st h nodes O St w 0 root q Ex Er).
  - intros w. exact (hand_accepts h0 st h nodes 0 root O St Ex Er w).
Qed.

(** The nodes of a dictionary that add() made, or that was read from a message whose
    nodes exist, could have been made by hand. *)
Theorem C105_built : forall terms h d, dictionary terms h d -> exists hist nodes, retells h (d_root d) hist nodes /\ forall w, term_of hist 0 w <-> In w terms.
Proof.
  intros terms h d D. destruct (QueryFacts.dictionary_unf _ _ _ D) as (U & _). destruct (some_story h (d_root d) (GraftProofs.unf_solid _ _ _ U)) as (hist & nodes & Re).
  exists hist, nodes. split; [exact Re|]. intros w. rewrite <- (re_terms _ _ _ _ Re w). apply (PropsGraft.dictionary_accepts _ _ _ D).
Qed.

Theorem C105_message : forall alloc h0 m h b dead es, allocator alloc ->
  replay (m_nodes m) [] [] (m_edges m) = Some (dead, es) -> from_protobuf alloc h0 m = Ok (h, b) ->
  (forall w i, walks (m_nodes m) dead es (m_root m) w i -> In i (m_nodes m) /\ ~ In i dead) ->
  exists hist nodes, retells h (d_root (b_dawg b)) hist nodes /\ forall w, term_of hist 0 w <-> exists i, walks (m_nodes m) dead es (m_root m) w i /\ In i (m_finals m).
Proof.
  intros alloc h0 m h b dead es A Er E Good. pose proof (ForeignProofs.from_protobuf_stands alloc h0 m A) as X. rewrite Er in X.
  destruct X as (f & h' & E1 & St). rewrite E in E1. injection E1 as <- ->. cbn [b_dawg d_root].
  destruct (some_story h (f (m_root m)) (foreign_solid _ _ _ _ _ _ _ _ St Good)) as (hist & nodes & Re). exists hist, nodes. split; [exact Re|].
  intros w. rewrite <- (re_terms _ _ _ _ Re w). exact (foreign_accepts _ _ _ _ _ _ _ _ St Good w).
Qed.

(** Whatever calls on these nodes, and on new ones, follow, as long as they are orderly:
    they succeed and touch no other memory, and every dictionary that has one of the
    nodes as its root has the terms that the whole history says.  Lookups, queries and
    saving work even if one can go round; if not, iterating and deleting do, too. *)
Theorem C105_further : forall alloc h root hist nodes calls more, allocator alloc -> retells h root hist nodes ->
  plainly (length nodes) calls more -> orderly (hist ++ more) ->
  exists h2 added, perform_any_all alloc h nodes calls = Ok (h2, nodes ++ added) /\
    (forall p, ~ In p (nodes ++ added) -> hget h2 p = hget h p) /\
    forall x p size, exists_still (hist ++ more) x -> nth_error (nodes ++ added) x = Some p ->
      (forall w, (N.of_nat (length w) <= 2147483647)%N -> exists b, contains h2 (Dawg p size) w = Ok b /\ (b = true <-> term_of (hist ++ more) x w)) /\
      (forall R (rt : result_type R) alg q n, manageable q n -> (n <= SIZE_MAX)%N -> (N.of_nat (length q) + n + 1 < 2 ^ 62)%N ->
        exists answers, lists alg q n (term_of (hist ++ more) x) answers /\ sorted_by shortlex_lt (map fst answers) /\
          yields rt alg h2 (Dawg p size) q n (map (fun a => r_update rt (fst a) (snd a)) answers)) /\
      (exists m, runs_to (fun fuel => to_protobuf fuel h2 (Dawg p size)) m /\
        forall alloc2 h3, allocator alloc2 -> exists h4 b, from_protobuf alloc2 h3 m = Ok (h4, b) /\ alike h2 (Dawg p size) h4 (b_dawg b)) /\
      (~ goes_round (hist ++ more) x ->
        answers_for (term_of (hist ++ more) x) h2 (Dawg p size) /\
        exists h3, runs_to (fun fuel => destroy_dawg fuel h2 (Dawg p size)) h3 /\
          (forall w y q, destination (hist ++ more) x w = Some y -> nth_error (nodes ++ added) y = Some q -> hget h3 q = None) /\
          (forall q, (forall w y, destination (hist ++ more) x w = Some y -> nth_error (nodes ++ added) y <> Some q) -> hget h3 q = hget h2 q)).
Proof.
  intros alloc h root hist nodes calls more A Re P O. pose proof (retells_stands _ _ _ _ Re) as St0.
  destruct (perform_any_ok alloc (before h nodes) (length nodes) calls more P A hist h nodes (st_len _ _ _ _ St0) O St0) as (h2 & ps & E & St).
  destruct (perform_any_grows _ _ _ _ _ _ E) as (added & ->). exists h2, added. split; [exact E|]. split.
  - intros p Np. rewrite (st_others _ _ _ _ St).
    + rewrite before_at. destruct (existsb (N.eqb p) nodes) eqn:X; [|reflexivity]. exfalso. apply existsb_exists in X. destruct X as (p' & I & Ep). apply N.eqb_eq in Ep. subst p'. apply Np, in_or_app. now left.
    + intros x _ X. apply Np. eapply nth_error_In; eauto.
  - intros x p size Ex Ep. pose proof (hand_solid _ _ _ _ x p O St Ex Ep) as S. pose proof (hand_accepts _ _ _ _ x p O St Ex Ep) as Ac. split; [|split; [|split]].
    + intros w Lw. pose proof (hand_contains _ _ _ _ O St w 0%N x p ltac:(lia) Ex Ep) as X. eexists. split; [exact X|]. unfold term_of. destruct (destination (hist ++ more) x w) as [y|]; [|split; [discriminate|intros (y & Y & _); discriminate Y]].
      split; [intros F; exists y; split; [reflexivity|destruct (finality (hist ++ more) y); congruence]|]. intros (y' & Y & F). injection Y as <-. now rewrite F.
    + intros R rt alg q n Lq Ln Ls. destruct (RoundProofs.round_query rt h2 alg q n p S Lq Ln Ls) as (answers & Li & X & Y & _). exists answers. split; [eapply lists_ext; [|exact Li]; exact Ac|]. split; [exact X|exact Y].
    + destruct (SaveRoundProofs.saved h2 (Dawg p size) S) as (m & Rm & D). exists m. split; [exact Rm|]. intros alloc2 h3 A2.
      destruct (SaveRoundProofs.saved_and_read alloc2 h2 (Dawg p size) m h3 A2 S D) as (h4 & b & E4 & _ & Al & _). eauto.
    + intros Ng. destruct (made_unf _ _ _ _ x p O St Ex Ep Ng) as (t & U & _). split; [exact (PropsGraft.unf_answers h2 (Dawg p size) t _ U Ac)|].
      destruct (destroy_dawg_all h2 (Dawg p size) t U) as (h3 & R & D1 & D2). cbn [d_root] in *. exists h3. split; [exists (tsize t + 2); exact R|]. split.
      * intros w y q D Q. apply D1. apply (hand_reach _ _ _ _ O St x p q Ex Ep). eauto.
      * intros q Nq. apply D2. intros Rq. apply (hand_reach _ _ _ _ O St x p q Ex Ep) in Rq. destruct Rq as (w & y & D & Q). exact (Nq w y D Q).
Qed.
(** ** A case: from where "ab", "cab" and "cb" lead, 'x' goes back to the root of the
    dictionary, and a new node leads there with 'y'. *)
Definition example_nodes : list ptr := [1; 2; 3; 4; 5]%N.
Definition example_story : list node_call :=
  [Make false; Make true; Make true; Make false; Make false;
   Link 0 "a" 1; Link 0 "c" 3; Link 1 "b" 2; Link 3 "a" 4; Link 3 "b" 2; Link 4 "b" 2]%char.
Definition example_more : list node_call := [Make true; Link 2 "x" 0; Link 5 "y" 2]%char.

Lemma example_retold : retells example_heap (d_root example_dawg) example_story example_nodes.
Proof.
  assert (At : forall p, In p example_nodes -> p <> null /\ hget example_heap p = Some (node_of example_heap p) /\ esorted (nedges (node_of example_heap p))).
  { intros p [<-|[<-|[<-|[<-|[<-|[]]]]]]; (split; [discriminate|]; split; [reflexivity|]; vm_compute; repeat constructor). }
  assert (Cl : forall p c q, In p example_nodes -> In (c, q) (nedges (node_of example_heap p)) -> In q example_nodes).
  { intros p c q [<-|[<-|[<-|[<-|[<-|[]]]]]] I; vm_compute in I; repeat (destruct I as [I|I]; [injection I as _ <-; cbn; auto 10|]); destruct I. }
  change example_story with (story example_heap example_nodes).
  assert (No : forall q, In q example_nodes <-> reach example_heap (d_root example_dawg) q).
  { intros q. split.
    - change (d_root example_dawg) with 1%N.
      assert (R1 : reach example_heap 1%N 1%N) by apply reach_refl.
      assert (R2 : reach example_heap 1%N 2%N) by (eapply reach_step; [exact R1|reflexivity|left; reflexivity]).
      assert (R3 : reach example_heap 1%N 3%N) by (eapply reach_step; [exact R2|reflexivity|left; reflexivity]).
      assert (R4 : reach example_heap 1%N 4%N) by (eapply reach_step; [exact R1|reflexivity|right; left; reflexivity]).
      assert (R5 : reach example_heap 1%N 5%N) by (eapply reach_step; [exact R4|reflexivity|left; reflexivity]).
      intros [<-|[<-|[<-|[<-|[<-|[]]]]]]; assumption.
    - intros (w & P). assert (I : In (d_root example_dawg) example_nodes) by (left; reflexivity). revert I P. generalize (d_root example_dawg). induction w as [|c w IH]; intros p I P; [inversion P; subst; exact I|].
      inversion P as [|? m ? z ? ? G E P']; subst. apply (IH z); [|exact P']. apply (Cl p c z I). destruct (At p I) as (_ & G' & _). congruence. }
  assert (Un : NoDup example_nodes) by (repeat constructor; cbn; intuition discriminate).
  pose proof (story_orderly example_heap example_nodes (fun p I => proj2 (proj2 (At p I))) Cl) as O.
  pose proof (story_stands example_heap example_nodes (fun p I => proj2 (proj2 (At p I))) Cl Un (fun p I => conj (proj1 (At p I)) (proj1 (proj2 (At p I))))) as St.
  assert (Ke : forall x, x < length example_nodes -> exists_still (story example_heap example_nodes) x) by (intros x L; apply story_still; [exact (fun p I => proj2 (proj2 (At p I)))|exact L]).
  constructor; auto.
  - intros q I. destruct (At q I) as (N & G & S). split; [exact N|]. exists (node_of example_heap q). split; [exact G|exact S].
  - intros w q. apply (hand_path _ _ _ _ O St w 0); [apply Ke; cbn; lia|reflexivity].
  - intros w. apply (hand_accepts _ _ _ _ 0 _ O St); [apply Ke; cbn; lia|reflexivity].
Qed.

Lemma example_orderly : orderly (example_story ++ example_more).
Proof.
  unfold example_story, example_more. cbn [app]. intros h1 o h2 E.
  do 14 (destruct h1 as [|? h1]; cbn [app] in E;
    [injection E as <- E; first [exact Logic.I | still | split; [still|split; [still|intros old Et; vm_compute in Et; discriminate Et]]]
    | injection E as <- E]).
  destruct h1; discriminate E.
Qed.

Example C105_case : exists h2 p, perform_any_all bump example_heap example_nodes (map Plain example_more) = Ok (h2, example_nodes ++ [p]) /\
  contains h2 example_dawg (lit "abxcabxa") = Ok true /\ contains h2 example_dawg (lit "abx") = Ok false /\
  contains h2 (Dawg p 0) (lit "yxcb") = Ok true /\
  (forall w, (N.of_nat (length w) <= 2147483647)%N -> exists b, contains h2 (Dawg p 0) w = Ok b /\ (b = true <-> term_of (example_story ++ example_more) 5 w)) /\
  goes_round (example_story ++ example_more) 5.
Proof.
  destruct (C105_further bump example_heap (d_root example_dawg) example_story example_nodes (map Plain example_more) example_more bump_allocator example_retold (plainly_plain _ _) example_orderly) as (h2 & added & E & _ & F).
  assert (Ex : exists_still (example_story ++ example_more) 5) by (unfold example_story, example_more; cbn [app]; still).
  exists h2. assert (X : exists p, added = [p]). { clear -E. vm_compute in E. injection E as _ E. destruct added as [|p [|]]; try discriminate E. eauto. }
  destruct X as (p & ->). exists p. split; [exact E|]. destruct (F 5 p 0%N Ex eq_refl) as (Co & _).
  split; [|split; [|split; [|split; [exact Co|]]]]; try (clear -E; vm_compute in E; injection E as <- <-; vm_compute; reflexivity).
  exists (lit "y"), 2, "x"%char, (lit "ab"). split; reflexivity.
Qed.

Print Assumptions C105_built.
Print Assumptions C105_message.
Print Assumptions C105_further.

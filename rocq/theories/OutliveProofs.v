(** * OutliveProofs: iterators that have outlived their dictionary. *)
From Coq Require Import Sorting.Sorted Sorting.Permutation.
From Verif Require Import Base Spec ModelTransducer ModelDawg ModelQuery SpecDawg SpecQuery SpecOutlive AlignProofs
  TransProofs StateProofs TreeProofs HeapProofs BuildProofs BuildProofs2 IterProofs DawgProofs ModelSerial SerialProofs QueryProofs
  QueryFacts.
Local Open Scope nat_scope.

(** ** [delete] leaves no node *)
Lemma delete_all_others : forall ps h h1, delete_all h ps = Ok h1 -> forall p, ~ In p ps -> hget h1 p = hget h p.
Proof.
  induction ps as [|a ps IH]; cbn [delete_all]; intros h h1 E p NI; [injection E as <-; auto|].
  unfold delete in E. destruct (N.eqb a null).
  - cbn [rbind] in E. apply (IH h h1 E). intros I; apply NI; right; auto.
  - destruct (hget h a) eqn:Ha; cbn [rbind] in E; [|discriminate].
    rewrite (IH _ _ E) by (intros I; apply NI; right; auto).
    rewrite hget_hdel. destruct (N.eqb p a) eqn:Ep; auto. apply N.eqb_eq in Ep. subst. exfalso. apply NI. left; auto.
Qed.

Lemma set_mem_In : forall p l, set_mem p l = true <-> In p l.
Proof.
  intros p l. unfold set_mem. rewrite existsb_exists. split.
  - intros (x & I & E). apply N.eqb_eq in E. subst; auto.
  - intros I. exists p. split; auto. apply N.eqb_refl.
Qed.

Lemma deleted_gone : forall h b h2 t, unf h (d_root (b_dawg b)) t -> deleted h b h2 ->
  forall p, reach h (d_root (b_dawg b)) p -> hget h2 p = None.
Proof.
  intros h b h2 t U (h1 & (M & R) & Same) p Rp. rewrite (Same p Rp). clear h2 Same.
  set (fuel := M + tsize t + 2). specialize (R fuel ltac:(lia)). unfold destroy in R.
  destruct (all_nodes_all h (b_dawg b) t U) as (out & E & ND & I).
  assert (Cl : exists h', clean_up fuel h b = Ok (h', Builder (b_dawg b) (b_prev b) None) /\
    (forall r, reach h (d_root (b_dawg b)) r -> hget h' r = hget h r)).
  { unfold clean_up in *. destruct b as [d pr [w|]]; cbn [b_dawg b_work b_prev] in *.
    - rewrite E in * by lia. cbn [rbind] in *.
      destruct (delete_all h _) as [h'| |] eqn:Ed; cbn [rbind] in R; try discriminate.
      exists h'. split; [reflexivity|]. intros r Rr. eapply delete_all_others; [exact Ed|].
      rewrite filter_In. intros (_ & X). apply Bool.negb_true_iff in X.
      apply I, set_mem_In in Rr. congruence.
    - exists h. split; auto. }
  destruct Cl as (h' & Ec & Sm). rewrite Ec in R. cbn [rbind b_dawg] in R.
  assert (U' : unf h' (d_root (b_dawg b)) t).
  { eapply unf_frame with (P := reach h (d_root (b_dawg b))); eauto using reach_closed, reach_refl. }
  destruct (destroy_dawg_all h' (b_dawg b) t U') as (h3 & E3 & D & _).
  rewrite E3 in R by lia. injection R as <-. apply D. eapply reach_frame; eauto.
Qed.

Lemma read_gone : forall h p, hget h p = None -> read h p = UB.
Proof. intros h p E. unfold read. rewrite E. destruct (N.eqb p null); auto. Qed.

(** ** Queries *)
Section Query.
  Context {R : Type} (rt : result_type R).
  Variables (h h2 : heap) (alg : algorithm) (x : str) (n : N) (root : ptr).
  Hypothesis Gone : forall p, reach h root p -> hget h2 p = None.

  (** What a query will look at are nodes of the dictionary; it stands on a
      result only while it has something to look at. *)
  Record holds (q : query R) : Prop := {
    ho_pending : Forall (fun i => reach h root (i_node i)) (q_pending q);
    ho_edges : Forall (fun e => reach h root (snd e)) (q_edges q) }.

  Lemma read_edges : forall p nd, reach h root p -> read h p = Ok nd -> Forall (fun e : char * ptr => reach h root (snd e)) (nedges nd).
  Proof.
    intros p nd Rp E. unfold read in E. destruct (N.eqb p null); [discriminate|].
    destruct (hget h p) eqn:G; [|discriminate]. injection E as ->.
    apply Forall_forall. intros [c r] I. cbn. eapply reach_step; eauto.
  Qed.

  Lemma step_holds : forall q broke q', holds q -> advance_step rt h alg x n q = Ok (broke, q') ->
    holds q' /\ (if broke : bool then q_pending q' <> [] /\ q_complete q' = false else q_complete q' = q_complete q).
  Proof.
    intros q broke q' [Hp He] E. unfold advance_step in E.
    destruct (q_edges q) as [|[c next] edges] eqn:Eq.
    - destruct (q_pending q) as [|i rest] eqn:Ep; [discriminate|].
      destruct (i_state i) as [|hd tl]; [discriminate|].
      destruct (read h (i_node i)) as [nd| |] eqn:Er; cbn [rbind] in E; try discriminate.
      injection E as <- <-. inversion Hp; subst. split; [constructor; cbn; auto|reflexivity].
      eapply read_edges; eauto.
    - inversion He; subst.
      destruct (deref (q_current q)) as [i| |]; cbn [rbind] in E; try discriminate.
      destruct (characteristic_vector _ _ _ _) as [cv| |]; cbn [rbind] in E; try discriminate.
      destruct (state_transition _ _ _ _ _) as [[st|]| |]; cbn [rbind] in E; try discriminate.
      + assert (Hp' : Forall (fun i => reach h root (i_node i)) (q_pending q ++ [ChildI c next st i])).
        { apply Forall_app. split; auto. }
        destruct (read h next) as [nd| |]; cbn [rbind] in E; try discriminate.
        destruct (nfin nd); [destruct (_ <=? _)%N|]; injection E as <- <-; (split; [constructor; cbn; auto|]); auto.
        cbn. split; auto. destruct (q_pending q); discriminate.
      + injection E as <- <-. split; [constructor; cbn; auto|reflexivity].
  Qed.

  Definition settled (q : query R) : Prop :=
    holds q /\ (q_complete q = false -> q_pending q <> []) /\ (q_complete q = true -> has_work q = false).

  Lemma loop_settled : forall fuel q q', holds q -> q_complete q = true -> advance_query_loop rt h alg x n fuel q = Ok q' -> settled q'.
  Proof.
    induction fuel as [|fuel IH]; cbn [advance_query_loop]; intros q q' Hq C E; [discriminate|].
    destruct (advance_step rt h alg x n q) as [[broke q1]| |] eqn:Es; cbn [rbind] in E; try discriminate.
    destruct (step_holds _ _ _ Hq Es) as (H1 & X). destruct broke.
    - injection E as <-. destruct X as (X1 & X2). split; [exact H1|split; [auto; congruence|intros; congruence]].
    - destruct (has_work q1) eqn:Hw.
      + apply IH with (q := q1); congruence || auto.
      + injection E as <-. split; [exact H1|split; [auto; congruence|intros; congruence]].
  Qed.

  Lemma advance_settled : forall fuel q q', holds q -> advance_query rt h alg x n fuel q = Ok q' -> settled q'.
  Proof.
    intros fuel q q' [Hp He] E. unfold advance_query in E. destruct (has_work q) eqn:Hw.
    - eapply loop_settled; [| |exact E]; [constructor; auto|reflexivity].
    - injection E as <-. split; [constructor; auto|]. split; [discriminate|]. intros _. exact Hw.
  Qed.

  Lemma after_settled : forall fuel k q, query_after rt fuel h (new_transducer alg root) x n k = Ok q -> settled q.
  Proof.
    intros fuel k q E. unfold query_after, begin_query, new_query in E. cbn [tr_root tr_alg new_transducer i_node] in E.
    assert (Ho : forall c, holds (Query [RootI root [Pos 0 0 false]] [] false None c 0%N 0%N)).
    { intros c. constructor; cbn; auto. constructor; auto. cbn. apply reach_refl. }
    assert (Inc : forall k q0 q', settled q0 -> increments rt h alg x n fuel k q0 = Ok q' -> settled q').
    { clear - Gone. induction k as [|k IH]; cbn [increments]; intros q0 q' S E; [injection E as <-; auto|].
      destruct (advance_query rt h alg x n fuel q0) as [q1| |] eqn:E1; cbn [rbind] in E; try discriminate.
      eapply IH; [|exact E]. eapply advance_settled; [|exact E1]. apply S. }
    destruct (read h root) as [nd| |]; cbn [rbind] in E; try discriminate.
    destruct (nfin nd && _)%bool eqn:Fn.
    - cbn [rbind] in E. eapply Inc; [|exact E]. split; [apply Ho|]. cbn. split; [discriminate|discriminate].
    - destruct (advance_query _ _ _ _ _ _ _) as [q1| |] eqn:E1; cbn [rbind] in E; try discriminate.
      eapply Inc; [|exact E]. eapply advance_settled; [|exact E1]. apply Ho.
  Qed.

  (** Without the dictionary the first look at a node is undefined. *)
  Variable B : nat.
  Hypothesis Hx : manageable x n.
  Hypothesis Hn : (n <= SIZE_MAX)%N.
  Hypothesis HB : small_depth B.

  Lemma loop_gone : forall es q v ts Q, holds q -> q_edges q = es -> q_pending q <> [] -> rquery h alg x n B q v ts Q ->
    forall fuel, length es < fuel -> advance_query_loop rt h2 alg x n fuel q = UB.
  Proof.
    induction es as [|[c next] es IH]; intros q v ts Q [Hp He] Eq Np Rq [|fuel] L; cbn [length] in L; try lia; cbn [advance_query_loop].
    - unfold advance_step at 1. rewrite Eq. destruct (q_pending q) as [|i rest] eqn:Ep; [congruence|].
      destruct (i_state i) as [|hd tl]; [reflexivity|]. inversion Hp; subst. rewrite read_gone by auto. reflexivity.
    - assert (Hw : has_work q = true). { unfold has_work. rewrite Eq. auto. }
      destruct (step_ok rt h alg x n B Hx Hn HB q v ts Q Rq Hw) as (broke & q' & v' & es' & Q' & E & Rq' & _).
      unfold advance_step in *. rewrite Eq in *. inversion He; subst.
      destruct (deref (q_current q)) as [i| |]; cbn [rbind] in *; try discriminate.
      destruct (characteristic_vector _ _ _ _) as [cv| |]; cbn [rbind] in *; try discriminate.
      destruct (state_transition _ _ _ _ _) as [[st|]| |]; cbn [rbind] in *; try discriminate.
      + rewrite read_gone by auto. reflexivity.
      + injection E as <- <-.
        assert (has_work (Query (q_pending q) es (q_complete q) (q_current q) (q_candidate q) (q_k q) (q_i q)) = true) as ->.
        { unfold has_work. cbn. destruct es; auto. destruct (q_pending q); auto; congruence. }
        eapply IH; [| | |exact Rq'|]; cbn; auto; [constructor; cbn; auto|lia].
  Qed.

  Lemma advance_gone : forall q M L, settled q -> after h alg x n B q M L ->
    (q_complete q = false -> runs_into_ub (fun fuel => advance_query rt h2 alg x n fuel q)) /\
    (q_complete q = true -> runs_to (fun fuel => advance_query rt h2 alg x n fuel q) q).
  Proof.
    intros q M L ((Hp & He) & S1 & S2) (v & ts & Q & Rq & _ & _). split; intros C.
    - exists (S (length (q_edges q))). intros fuel Hf. unfold advance_query.
      assert (has_work q = true) as ->.
      { unfold has_work. specialize (S1 C). destruct (q_edges q); auto. destruct (q_pending q); auto; congruence. }
      eapply loop_gone with (es := q_edges q) (v := v) (ts := ts) (Q := Q); cbn; auto.
      + constructor; auto.
      + destruct Rq. constructor; auto.
    - exists 0. intros fuel _. unfold advance_query. rewrite (S2 C). f_equal. destruct q. cbn in *. subst. reflexivity.
  Qed.
End Query.

Lemma query_outlives : forall R (rt : result_type R) alg terms h h2 d q n k, dictionary terms h d -> within_limits terms q n ->
  (forall p, reach h (d_root d) p -> hget h2 p = None) ->
  exists it, stands_at rt alg h d q n k it /\
    (k < length (scored alg terms q n) -> runs_into_ub (fun fuel => advance_query rt h2 alg q n fuel it)) /\
    (length (scored alg terms q n) <= k -> runs_to (fun fuel => advance_query rt h2 alg q n fuel it) it).
Proof.
  intros R rt alg terms h h2 d q n k D L G.
  destruct (query_after_main R rt alg terms h d q n k D L) as (it & (M0 & St) & X).
  exists it. split; [exists M0; exact St|].
  destruct L as (Lq & Ln & Lt). destruct (dictionary_unf _ _ _ D) as (U & _).
  destruct (longest terms small_depth) as (B & SB & HB). { unfold small_depth; lia. } { exact Lt. }
  assert (Af : exists M L, after h alg q n B it M L).
  { destruct (new_query_ok rt h alg q n B Lq Ln SB (d_root d) (trie terms) U (trie_height _ _ HB)) as (M & E).
    pose proof (St (M0 + S M) ltac:(lia)) as St'. unfold query_after, begin_query in St'.
    cbn [tr_alg tr_root new_transducer] in St'.
    destruct (E (M0 + S M) ltac:(lia)) as (q0 & E0 & X0). change initial_state with [Pos 0 0 false] in E0. rewrite E0 in St'. cbn [rbind] in St'.
    assert (exists L, after h alg q n B q0 M L) as (L & A).
    { destruct (matches alg q n (trie terms)); destruct X0 as (_ & _ & A); eauto. }
    destruct (increments_ok rt h alg q n B Lq Ln SB k q0 M L (M0 + S M) A ltac:(lia)) as (q' & E' & A' & _).
    rewrite E' in St'. injection St' as <-. eauto. }
  destruct Af as (M & L & Af).
  pose proof (after_settled rt h alg q n (d_root d) M0 k it (St M0 (le_n _))) as Se.
  destruct (advance_gone rt h h2 alg q n (d_root d) G B Lq Ln SB it M L Se Af) as (Y1 & Y2).
  split; intros Hk.
  - apply Y1. apply nth_error_Some in Hk. destruct (nth_error _ k); [apply X|congruence].
  - apply Y2. apply nth_error_None in Hk. rewrite Hk in X. apply X.
Qed.

(** ** Iterators over the terms *)
Definition all_reach (h : heap) (root : ptr) (it : iter) : Prop :=
  Forall (fun p => reach h root (prefix_node p)) (it_pending it).

Lemma advance_loop_reach : forall root fuel h ps rest p nd, Forall (fun p => reach h root (prefix_node p)) ps ->
  advance_loop fuel h ps = Ok (rest, p, nd) -> Forall (fun p => reach h root (prefix_node p)) rest.
Proof.
  intros root. induction fuel as [|fuel IH]; cbn [advance_loop]; intros h ps rest p nd F E; [discriminate|].
  destruct ps as [|a ps]; [discriminate|]. inversion F; subst.
  destruct (read h (prefix_node a)) as [n| |] eqn:Er; cbn [rbind] in E; try discriminate.
  assert (F' : Forall (fun p => reach h root (prefix_node p)) (ps ++ map (fun e => ChildPrefix (snd e) a (fst e)) (nedges n))).
  { apply Forall_app. split; auto. apply Forall_map. eapply Forall_impl; [|eapply read_edges; eauto]. auto. }
  destruct (nfin n); [injection E as <- <- <-; auto|].
  destruct (ps ++ _) eqn:Eq; [injection E as <- <- <-; auto|]. eapply IH; eauto.
Qed.

Lemma advance_reach : forall root fuel h it it', all_reach h root it -> advance fuel h it = Ok it' -> all_reach h root it'.
Proof.
  unfold all_reach. intros root fuel h it it' F E. unfold advance in E. destruct (it_pending it) as [|a ps] eqn:Ep.
  - injection E as <-. rewrite Ep. auto.
  - destruct (advance_loop fuel h (a :: ps)) as [[[rest p] n]| |] eqn:El; cbn [rbind] in E; try discriminate.
    injection E as <-. cbn. eapply advance_loop_reach; eauto.
Qed.

(** Every item of the queue leads to a term, except the root of an empty dictionary. *)
Definition hopeful (q : list item) : Prop := Forall (fun e => useful (snd e) /\ nonempty (snd e)) q.

Lemma hopeful_kids : forall s f es, useful (T f es) -> hopeful (children s es).
Proof.
  intros s f es U. inversion U as [? ? F1 F2]; subst. unfold hopeful, children. apply Forall_map.
  rewrite Forall_forall in *. intros [c t] I. cbn. split; [apply (F2 _ I)|apply (F1 _ I)].
Qed.

Lemma hopeful_enum : forall q, Forall (fun e => tsorted (snd e)) q -> hopeful q -> enum q = [] -> q = [].
Proof.
  intros [|[s t] q] So H E; auto. exfalso. inversion H as [|? ? (_ & (w & Tw)) _]; subst. cbn in Tw.
  assert (I : In (s ++ w) (enum ((s, t) :: q))).
  { apply enum_In; [exact So|]. exists s, t, w. split; [left; auto|auto]. }
  rewrite E in I. destruct I.
Qed.

Definition ready (q : list item) : Prop := qsorted q /\ Forall (fun e => useful (snd e)) q /\ hopeful (tl q).

Lemma loop_hopeful : forall fuel h ps q rest p nd, Forall2 (represents_item h) ps q -> ready q ->
  advance_loop fuel h ps = Ok (rest, p, nd) -> exists q', Forall2 (represents_item h) rest q' /\ qsorted q' /\ hopeful q'.
Proof.
  induction fuel as [|fuel IH]; cbn [advance_loop]; intros h ps q rest p nd F (So & Us & Ho) E; [discriminate|].
  destruct F as [|a [s [f es]] ps q [Ps Up] F]; [discriminate|]. cbn in Ps, Up. cbn [tl] in Ho.
  destruct (unf_read _ _ _ Up) as (n & Rn & G & Sn & Un & Fn). cbn in Un. rewrite Rn in E. cbn [rbind] in E.
  inversion Us as [|? ? U1 U2]; subst. cbn in U1.
  set (r := ps ++ map (fun e => ChildPrefix (snd e) a (fst e)) (nedges n)) in *.
  assert (F' : Forall2 (represents_item h) r (q ++ children (prefix_str a) es)).
  { apply Forall2_app; auto. clear - Un. unfold children. induction Un; cbn; constructor; auto. split; auto. }
  apply qsorted_step in So. destruct So as (_ & So').
  assert (Ho' : hopeful (q ++ children (prefix_str a) es)).
  { apply Forall_app. split; auto. eapply hopeful_kids; eauto. }
  destruct (nfin n); [injection E as <- <- <-; eauto|].
  destruct r as [|r0 r]; [injection E as <- <- <-; eauto|].
  eapply IH; [exact F'| |exact E]. split; auto. split.
  - eapply Forall_impl; [|exact Ho']. intros e (X & _). exact X.
  - destruct (q ++ children (prefix_str a) es); cbn; auto. inversion Ho'; auto.
Qed.

Record standing (h : heap) (root : ptr) (it : iter) (L : list str) (M : nat) : Prop := {
  sd_queue : exists q, Forall2 (represents_item h) (it_pending it) q /\ qsorted q /\ hopeful q /\ enum q = L /\ qsize q <= M;
  sd_reach : all_reach h root it }.

Lemma represents_det : forall h ps q q', Forall2 (represents_item h) ps q -> Forall2 (represents_item h) ps q' -> q = q'.
Proof.
  intros h ps q q' F. revert q'. induction F as [|p [s t] ps q (E1 & U1) F IH]; intros q' F'; inversion F' as [|? [s' t'] ? q1 (E2 & U2) F2]; subst; auto.
  cbn in *. f_equal; auto. f_equal; [congruence|]. eapply unf_fun; eauto.
Qed.

Lemma advance_standing : forall h root it q M fuel, Forall2 (represents_item h) (it_pending it) q -> ready q ->
  all_reach h root it -> qsize q <= M -> M < fuel ->
  exists it', advance fuel h it = Ok it' /\ standing h root it' (tl (enum q)) M.
Proof.
  intros h root it q M fuel F Rd Ar Q L.
  destruct (advance_ok fuel h it q F ltac:(lia)) as (it' & q' & E & F' & L' & Ii & V & En).
  exists it'. split; auto. split; [|eapply advance_reach; eauto].
  exists q'. split; auto. enough (qsorted q' /\ hopeful q') by (repeat split; try tauto; lia).
  unfold advance in E. destruct (it_pending it) as [|a ps] eqn:Ep.
  - injection E as <-. rewrite Ep in F'. inversion F'. split; constructor.
  - destruct (advance_loop fuel h (a :: ps)) as [[[rest p] n]| |] eqn:El; cbn [rbind] in E; try discriminate.
    injection E as <-. cbn in F'.
    destruct (loop_hopeful _ _ _ _ _ _ _ F Rd El) as (q2 & F2 & X). rewrite (represents_det _ _ _ _ F' F2). exact X.
Qed.

Lemma standing_next : forall h root it L M fuel, standing h root it L M -> M < fuel ->
  exists it', iter_next fuel h it = Ok it' /\ standing h root it' (tl L) M.
Proof.
  intros h root it L M fuel [(q & F & So & Ho & <- & Q) Ar] Hf. unfold iter_next.
  destruct (advance_standing h root it q M fuel F) as (it' & E & [S1 S2]); auto.
  - split; auto. split.
    + eapply Forall_impl; [|exact Ho]. intros e (X & _). exact X.
    + destruct q; cbn; auto. inversion Ho; auto.
  - rewrite E. cbn [rbind]. eexists. split; [reflexivity|]. split; auto.
Qed.

Lemma standing_steps : forall k h root it L M fuel, standing h root it L M -> M < fuel ->
  exists it', steps_on fuel h k it = Ok it' /\ standing h root it' (skipn k L) M.
Proof.
  induction k as [|k IH]; intros h root it L M fuel S Hf; cbn [steps_on].
  - exists it. auto.
  - destruct (standing_next _ _ _ _ _ _ S Hf) as (it1 & E1 & S1). rewrite E1. cbn [rbind].
    destruct (IH _ _ _ _ _ _ S1 Hf) as (it2 & E2 & S2). exists it2. split; auto.
    destruct L; cbn [skipn tl] in *; rewrite ?skipn_nil in *; auto.
Qed.

Lemma advance_loop_more : forall fuel fuel' h ps r, fuel <= fuel' -> advance_loop fuel h ps = Ok r -> advance_loop fuel' h ps = Ok r.
Proof.
  induction fuel as [|fuel IH]; intros [|fuel'] h ps r L E; cbn [advance_loop] in *; try discriminate; try lia.
  destruct ps as [|p ps]; auto. destruct (read h (prefix_node p)) as [n| |]; cbn [rbind] in *; auto.
  destruct (nfin n); auto. destruct (ps ++ _); auto. apply IH; auto. lia.
Qed.

Lemma advance_more : forall fuel fuel' h it r, fuel <= fuel' -> advance fuel h it = Ok r -> advance fuel' h it = Ok r.
Proof.
  intros fuel fuel' h it r L E. unfold advance in *. destruct (it_pending it); auto.
  destruct (advance_loop fuel h _) as [x| |] eqn:El; cbn [rbind] in E; try discriminate.
  rewrite (advance_loop_more _ _ _ _ _ L El). auto.
Qed.

Lemma steps_more : forall k fuel fuel' h it r, fuel <= fuel' -> steps_on fuel h k it = Ok r -> steps_on fuel' h k it = Ok r.
Proof.
  induction k as [|k IH]; intros fuel fuel' h it r L E; cbn [steps_on] in *; auto.
  unfold iter_next in *. destruct (advance fuel h it) as [x| |] eqn:Ea; cbn [rbind] in E; try discriminate.
  rewrite (advance_more _ _ _ _ _ L Ea). cbn [rbind]. eauto.
Qed.

Lemma iter_after_standing : forall h d t k, unf h (d_root d) t -> tsorted t -> useful t ->
  exists it M, runs_to (fun fuel => iter_after fuel h d k) it /\ standing h (d_root d) it (skipn (S k) (words t)) M.
Proof.
  intros h d t k U So Us.
  set (it0 := Iter [RootPrefix (d_root d)] [] 0%N). set (q0 := [([], t)] : list item).
  assert (F : Forall2 (represents_item h) (it_pending it0) q0).
  { constructor; [|constructor]. split; auto. }
  destruct (advance_standing h (d_root d) it0 q0 (qsize q0) (S (qsize q0)) F) as (it1 & E1 & S1); auto.
  { split; [constructor; auto|]. split; [constructor; auto|]. constructor. }
  { constructor; [|constructor]. apply reach_refl. }
  change (enum q0) with (words t) in S1.
  destruct (standing_steps k h (d_root d) it1 _ _ (S (qsize q0)) S1 ltac:(lia)) as (it & E & St).
  exists it, (qsize q0). split.
  - exists (S (qsize q0)). intros fuel Hf. unfold iter_after, dawg_begin. fold it0.
    rewrite (advance_more _ _ _ _ _ Hf E1). cbn [rbind]. eapply steps_more; eauto.
  - destruct (words t); cbn [skipn tl] in *; rewrite ?skipn_nil in *; auto.
Qed.

Lemma iter_outlives : forall h h2 d t k, unf h (d_root d) t -> tsorted t -> useful t ->
  (forall p, reach h (d_root d) p -> hget h2 p = None) ->
  exists it, runs_to (fun fuel => iter_after fuel h d k) it /\
    (S k < length (words t) -> runs_into_ub (fun fuel => iter_next fuel h2 it)) /\
    (length (words t) <= S k -> forall fuel h3, iter_next fuel h3 it = Ok (Iter [] (it_value it) (wadd (it_index it) 1))).
Proof.
  intros h h2 d t k U So Us G. destruct (iter_after_standing h d t k U So Us) as (it & M & R & [(q & F & Sq & Ho & E & _) Ar]).
  exists it. split; auto. unfold all_reach in Ar. split; intros Hk; [exists 1; intros fuel Hf|intros fuel h3]; unfold iter_next, advance.
  - destruct (it_pending it) as [|p ps].
    + inversion F; subst. rewrite enum_nil in E. symmetry in E. apply (f_equal (@length _)) in E.
      rewrite skipn_length in E. cbn [length] in E. lia.
    + destruct fuel; [lia|]. cbn [advance_loop]. inversion Ar; subst. rewrite read_gone by auto. reflexivity.
  - rewrite skipn_all2 in E by lia. apply hopeful_enum in E; auto. subst q.
    destruct (it_pending it) eqn:Ep; [|inversion F]. cbn [rbind]. rewrite Ep. reflexivity.
Qed.

(** * BoundProofs: the size of states and the prefixes a query looks at. *)
From Coq Require Import Sorting.Sorted Sorting.Permutation.
From Verif Require Import Base Spec SpecTransducer ModelTransducer ModelDawg ModelQuery SpecDawg SpecBounds AlignProofs TransProofs
  StateProofs ReadProofs TreeProofs HeapProofs IterProofs QueryProofs.
Local Open Scope nat_scope.

(** ** Distinct positions *)
Lemma merge_transitions_merged alg n cv off : forall curr next r, merged alg next ->
  merge_transitions alg n cv off curr next = Ok r -> merged alg r.
Proof.
  induction curr as [|p curr IH]; intros next r M E; cbn in E.
  - injection E as <-. auto.
  - destruct (position_transition alg n p cv off) as [ps| |]; cbn [rbind] in E; try discriminate.
    eapply IH; [|exact E]. apply merge_merged; auto.
Qed.

Lemma state_transition_distinct alg n len st cv st' :
  state_transition alg n len st cv = Ok (Some st') -> NoDup (map (key alg) st').
Proof.
  unfold state_transition. destruct st as [|hd tl]; [discriminate|].
  destruct (merge_transitions alg n cv (ti hd) (hd :: tl) []) as [r| |] eqn:E; cbn [rbind]; try discriminate.
  assert (M : merged alg r). { eapply merge_transitions_merged; [|exact E]. constructor. }
  rewrite unsubsume_noop by auto. destruct r as [|p r]; [discriminate|].
  destruct (sort_compare_ok alg (p :: r)) as (s & Es & P & _). rewrite Es. cbn [rbind]. intros X. injection X as <-.
  eapply Permutation_NoDup; [apply Permutation_map; exact P|]. apply merged_nodup; auto.
Qed.

Lemma read_distinct alg x n : forall v st st', NoDup (map (key alg) st) ->
  SpecTransducer.read alg x n st v = Ok (Some st') -> NoDup (map (key alg) st').
Proof.
  induction v as [|c v IH]; intros st st' D E; cbn [SpecTransducer.read] in E.
  - injection E as <-. auto.
  - destruct st as [|hd tl]; [discriminate|].
    destruct (characteristic_vector _ _ _ _) as [cv| |]; cbn [rbind] in E; try discriminate.
    destruct (state_transition _ _ _ _ _) as [[st1|]| |] eqn:T; cbn [rbind] in E; try discriminate.
    eapply IH; [|exact E]. eapply state_transition_distinct; eauto.
Qed.

(** ** Counting *)
Definition ordinary (b n : nat) : list (nat * nat * bool) :=
  flat_map (fun e => map (fun i => (i, e, false)) (seq (b - e) (2 * e + 1))) (seq 0 (S n)).
Definition special (b n : nat) : list (nat * nat * bool) :=
  flat_map (fun e => map (fun i => (i, e, true)) (seq (b - e) (2 * e - 1))) (seq 1 n).

Lemma ordinary_length b n : length (ordinary b n) = (n + 1) * (n + 1).
Proof.
  unfold ordinary. induction n as [|n IH]; [reflexivity|].
  rewrite seq_S, flat_map_app, app_length, IH. cbn [flat_map]. rewrite app_nil_r, map_length, seq_length. lia.
Qed.

Lemma special_length b n : length (special b n) = n * n.
Proof.
  unfold special. induction n as [|n IH]; [reflexivity|].
  rewrite seq_S, flat_map_app, app_length, IH. cbn [flat_map]. rewrite app_nil_r, map_length, seq_length. lia.
Qed.

Definition nkey (p : position) : nat * nat * bool := (ii p, ee p, sp p).

Lemma valid_counted alg x n b p : valid alg x n b p ->
  In (nkey p) (ordinary b (N.to_nat n)) \/ alg <> STANDARD /\ In (nkey p) (special b (N.to_nat n)).
Proof.
  intros (V1 & V2 & V3 & V4). unfold nkey, ordinary, special. destruct (sp p).
  - right. destruct V4 as (A & V4 & V5 & V6 & _). split; auto. apply in_flat_map. exists (ee p).
    split; [apply in_seq; unfold ee in *; lia|]. apply in_map_iff. exists (ii p). split; auto. apply in_seq. lia.
  - left. apply in_flat_map. exists (ee p). split; [apply in_seq; unfold ee in *; lia|].
    apply in_map_iff. exists (ii p). split; auto. apply in_seq. lia.
Qed.

Definition most (alg : algorithm) (n : nat) : nat :=
  match alg with STANDARD => (n + 1) * (n + 1) | _ => (n + 1) * (n + 1) + n * n end.

Lemma state_size alg x n b st : Forall (valid alg x n b) st -> NoDup (map (key alg) st) ->
  NoDup st /\ length st <= most alg (N.to_nat n).
Proof.
  intros V D. pose proof (NoDup_map_inv _ _ D) as Dp. split; auto.
  rewrite <- (map_length nkey st). rewrite Forall_forall in V.
  assert (D' : NoDup (map nkey st)).
  { clear D. induction Dp as [|p st Np Dp IH]; cbn; constructor; [|apply IH; intros; apply V; right; auto].
    intros I. apply in_map_iff in I. destruct I as (q & E & I). apply Np. enough (p = q) by congruence.
    unfold nkey, ii, ee in E. destruct p, q; cbn in *. injection E as E1 E2 E3. f_equal; auto; lia. }
  assert (I : forall k, In k (map nkey st) -> In k (ordinary b (N.to_nat n)) \/ alg <> STANDARD /\ In k (special b (N.to_nat n))).
  { intros k I. apply in_map_iff in I. destruct I as (p & <- & I). eapply valid_counted; eauto. }
  unfold most. pose proof (ordinary_length b (N.to_nat n)). pose proof (special_length b (N.to_nat n)).
  destruct alg.
  - rewrite <- H. apply NoDup_incl_length; auto. intros k Ik. destruct (I k Ik) as [|[X _]]; auto. congruence.
  - rewrite <- H, <- H0, <- app_length. apply NoDup_incl_length; auto. intros k Ik. apply in_app_iff. destruct (I k Ik) as [|[_ X]]; auto.
  - rewrite <- H, <- H0, <- app_length. apply NoDup_incl_length; auto. intros k Ik. apply in_app_iff. destruct (I k Ik) as [|[_ X]]; auto.
Qed.

(** ** Erasing the log *)
Section Erase.
  Context {R : Type} (rt : result_type R).
  Variables (h : heap) (alg : algorithm) (x : str) (n : N).

  Lemma log_loop_erase : forall fuel q,
    advance_query_loop rt h alg x n fuel q = do (log, q') <- log_loop rt h alg x n fuel q; Ok q'.
  Proof.
    induction fuel as [|fuel IH]; intros q; cbn [advance_query_loop log_loop]; auto.
    destruct (advance_step rt h alg x n q) as [[[|] q']| |]; cbn [rbind]; auto.
    destruct (has_work q'); auto. rewrite IH. destruct (log_loop rt h alg x n fuel q') as [[log q2]| |]; auto.
  Qed.

  Lemma log_advance_erase : forall fuel q,
    advance_query rt h alg x n fuel q = do (log, q') <- log_advance rt h alg x n fuel q; Ok q'.
  Proof. intros. unfold advance_query, log_advance. destruct (has_work q); auto. apply log_loop_erase. Qed.

  Lemma log_new_erase : forall fuel root,
    new_query rt h alg x n fuel root = do (log, q') <- log_new rt h alg x n fuel root; Ok q'.
  Proof.
    intros. unfold new_query, log_new. destruct (read h (i_node root)) as [nd| |]; cbn [rbind]; auto.
    destruct (_ && _)%bool; auto. apply log_advance_erase.
  Qed.

  Lemma log_increments_erase : forall fuel k q,
    increments rt h alg x n fuel k q = do (log, q') <- log_increments rt h alg x n fuel k q; Ok q'.
  Proof.
    induction k as [|k IH]; intros q; cbn [increments log_increments]; auto. rewrite log_advance_erase.
    destruct (log_advance rt h alg x n fuel q) as [[log q']| |]; cbn [rbind]; auto.
    rewrite IH. destruct (log_increments rt h alg x n fuel k q') as [[log' q2]| |]; auto.
  Qed.
End Erase.

Lemma log_after_erase : forall R (rt : result_type R) fuel h t x n k,
  query_after rt fuel h t x n k = do (log, q') <- log_after rt fuel h t x n k; Ok q'.
Proof.
  intros. unfold query_after, begin_query, log_after. rewrite log_new_erase.
  destruct (log_new rt h (tr_alg t) x n fuel (tr_root t)) as [[log q]| |]; cbn [rbind]; auto.
  rewrite log_increments_erase. destruct (log_increments rt h (tr_alg t) x n fuel k q) as [[log' q']| |]; auto.
Qed.

(** ** More fuel does not change an outcome *)
Section Mono.
  Context {R : Type} (rt : result_type R).
  Variables (h : heap) (alg : algorithm) (x : str) (n : N).

  Lemma log_loop_mono : forall fuel fuel' q r, fuel <= fuel' ->
    log_loop rt h alg x n fuel q = Ok r -> log_loop rt h alg x n fuel' q = Ok r.
  Proof.
    induction fuel as [|fuel IH]; intros fuel' q r L E; [discriminate|].
    destruct fuel' as [|fuel']; [lia|]. cbn [log_loop] in *.
    destruct (advance_step rt h alg x n q) as [[[|] q']| |]; cbn [rbind] in *; auto.
    destruct (has_work q'); auto. destruct (log_loop rt h alg x n fuel q') as [[log q2]| |] eqn:E1; cbn [rbind] in E; try discriminate.
    rewrite (IH fuel' q' _ ltac:(lia) E1). auto.
  Qed.

  Lemma log_advance_mono : forall fuel fuel' q r, fuel <= fuel' ->
    log_advance rt h alg x n fuel q = Ok r -> log_advance rt h alg x n fuel' q = Ok r.
  Proof. unfold log_advance. intros fuel fuel' q r L. destruct (has_work q); auto. apply log_loop_mono; auto. Qed.

  Lemma log_new_mono : forall fuel fuel' root r, fuel <= fuel' ->
    log_new rt h alg x n fuel root = Ok r -> log_new rt h alg x n fuel' root = Ok r.
  Proof.
    unfold log_new. intros fuel fuel' root r L. destruct (read h (i_node root)); cbn [rbind]; auto.
    destruct (_ && _)%bool; auto. apply log_advance_mono; auto.
  Qed.

  Lemma log_increments_mono : forall k fuel fuel' q r, fuel <= fuel' ->
    log_increments rt h alg x n fuel k q = Ok r -> log_increments rt h alg x n fuel' k q = Ok r.
  Proof.
    induction k as [|k IH]; intros fuel fuel' q r L E; cbn [log_increments] in *; auto.
    destruct (log_advance rt h alg x n fuel q) as [[log q']| |] eqn:E1; cbn [rbind] in E; try discriminate.
    rewrite (log_advance_mono fuel fuel' q _ L E1). cbn [rbind].
    destruct (log_increments rt h alg x n fuel k q') as [[log' q2]| |] eqn:E2; cbn [rbind] in E; try discriminate.
    rewrite (IH fuel fuel' q' _ L E2). auto.
  Qed.
End Mono.

Lemma log_after_mono : forall R (rt : result_type R) fuel fuel' h t x n k r, fuel <= fuel' ->
  log_after rt fuel h t x n k = Ok r -> log_after rt fuel' h t x n k = Ok r.
Proof.
  intros R rt fuel fuel' h t x n k r L E. unfold log_after in *.
  destruct (log_new rt h (tr_alg t) x n fuel (tr_root t)) as [[log q]| |] eqn:E1; cbn [rbind] in E; try discriminate.
  rewrite (log_new_mono rt _ _ _ _ _ fuel' _ _ L E1). cbn [rbind].
  destruct (log_increments rt h (tr_alg t) x n fuel k q) as [[log' q']| |] eqn:E2; cbn [rbind] in E; try discriminate.
  rewrite (log_increments_mono rt _ _ _ _ _ _ fuel' _ _ L E2). auto.
Qed.

(** ** The tree with every node final: its words are the prefixes *)
Fixpoint full (t : tree) : tree := match t with T _ es => T true (map (fun e => (fst e, full (snd e))) es) end.
Definition fulls (es : list (char * tree)) : list (char * tree) := map (fun e => (fst e, full (snd e))) es.
Definition fullq (Q : list item) : list item := map (fun e => (fst e, full (snd e))) Q.

Lemma fulls_get : forall es c, edge_get (fulls es) c = match edge_get es c with Some t => Some (full t) | None => None end.
Proof. induction es as [|[d t] es IH]; intros c; cbn; auto. destruct (ceqb c d); auto. Qed.

Lemma full_sorted : forall t, tsorted t -> tsorted (full t).
Proof.
  induction t as [f es IH] using tree_ind'. intros S. inversion S as [? ? So Fo]; subst. cbn. constructor.
  - clear -So. unfold esorted in *. induction So as [|[c t] es S IH F]; cbn; constructor; auto.
    rewrite Forall_forall in *. intros [d u] I. apply in_map_iff in I. destruct I as ([d' u'] & E & I). injection E as <- <-.
    apply (F _ I).
  - rewrite Forall_forall in *. intros e I. apply in_map_iff in I. destruct I as (e' & <- & I). cbn. apply (IH _ I). auto.
Qed.

Lemma tin_full : forall w t, useful t -> nonempty t -> (tin (full t) w = true <-> exists u, tin t (w ++ u) = true).
Proof.
  induction w as [|c w IH]; intros [f es] U Ne.
  - cbn [full tin tfin app]. split; auto.
  - inversion U as [? ? Fn Fu]; subst. cbn [full tin tedges app]. change (map (fun e => (fst e, full (snd e))) es) with (fulls es).
    rewrite fulls_get. destruct (edge_get es c) as [t|] eqn:G.
    + apply edge_get_In in G. rewrite Forall_forall in *. apply IH; [apply (Fu _ G)|apply (Fn _ G)].
    + split; [discriminate|]. intros (u & E). discriminate.
Qed.

Lemma tin_full_trie : forall terms c w, tin (full (trie terms)) (c :: w) = true <-> exists u, In ((c :: w) ++ u) terms.
Proof.
  intros terms c w. pose proof (trie_useful terms) as U.
  assert (E : (exists u, In ((c :: w) ++ u) terms) <-> exists u, tin (trie terms) ((c :: w) ++ u) = true).
  { split; intros (u & H); exists u; apply tin_trie; auto. }
  rewrite E. destruct (trie terms) as [f es]. inversion U as [? ? Fn Fu]; subst.
  cbn [full tin tedges app]. change (map (fun e => (fst e, full (snd e))) es) with (fulls es). rewrite fulls_get.
  destruct (edge_get es c) as [t|] eqn:G.
  - apply edge_get_In in G. rewrite Forall_forall in *. apply tin_full; [apply (Fu _ G)|apply (Fn _ G)].
  - split; [discriminate|]. intros (u & X). discriminate.
Qed.

Lemma children_fulls : forall v es, children v (fulls es) = fullq (children v es).
Proof. intros. unfold children, fulls, fullq. rewrite !map_map. reflexivity. Qed.

Lemma kids_fullq : forall Q, flat_map kids (fullq Q) = fullq (flat_map kids Q).
Proof.
  induction Q as [|[s t] Q IH]; auto. cbn [fullq map flat_map]. fold (fullq Q). rewrite IH.
  unfold fullq. rewrite map_app. f_equal. destruct t as [f es]. unfold kids. cbn [fst snd full tedges]. apply children_fulls.
Qed.

(** ** Which prefixes are alive *)
Section Alive.
  Variables (alg : algorithm) (x : str) (n : N).
  Hypothesis Hx : manageable x n.
  Hypothesis Hn : (n <= SIZE_MAX)%N.

  Definition alive (v : str) : bool :=
    match SpecTransducer.read alg x n initial_state v with Ok (Some _) => true | _ => false end.

  Definition worth (w : str) : bool := alive (removelast w).

  Lemma read_app : forall v u st, SpecTransducer.read alg x n st (v ++ u) =
    do o <- SpecTransducer.read alg x n st v; match o with None => Ok None | Some st' => SpecTransducer.read alg x n st' u end.
  Proof.
    induction v as [|c v IH]; intros u st; auto. cbn [app SpecTransducer.read]. destruct st as [|hd tl]; auto.
    destruct (characteristic_vector _ _ _ _) as [cv| |]; cbn [rbind]; auto.
    destruct (state_transition _ _ _ _ _) as [[st1|]| |]; cbn [rbind]; auto.
  Qed.

  Lemma alive_prefix : forall v u, alive v = false -> alive (v ++ u) = false.
  Proof.
    intros v u. unfold alive. rewrite read_app.
    destruct (SpecTransducer.read alg x n initial_state v) as [[st|]| |]; cbn [rbind]; auto. discriminate.
  Qed.

  Lemma alive_spec : forall v, small_depth (length v) ->
    (alive v = true <-> exists u, (N.of_nat (dst alg x (v ++ u)) <= n)%N).
  Proof.
    intros v S. destruct (read_initial alg x n v Hx Hn S) as (o & E & H). unfold alive. rewrite E. destruct o as [st|].
    - split; auto. intros _. eapply represents_lives; eauto.
    - split; [discriminate|]. intros (u & L). specialize (H u). lia.
  Qed.

  Lemma worth_dead : forall v t, alive v = false -> pruned worth (kids (v, t)) [].
  Proof.
    intros v [f es] A. unfold kids; cbn [fst snd tedges]. induction es as [|[c t] es IH]; cbn; constructor; auto.
    intros u. cbn. unfold worth. rewrite <- app_assoc. cbn [app]. rewrite removelast_app by discriminate.
    apply alive_prefix; auto.
  Qed.
End Alive.

(** ** The invariant *)
Section Run.
  Context {R : Type} (rt : result_type R).
  Variables (h : heap) (alg : algorithm) (x : str) (n : N) (B : nat).
  Hypothesis Hx : manageable x n.
  Hypothesis Hn : (n <= SIZE_MAX)%N.
  Hypothesis HB : small_depth B.

  Let good (w : str) : bool := (N.of_nat (dst alg x w) <=? n)%N.
  Let wrth := worth alg x n.

  Definition ahead (v : str) (es : list (char * tree)) (Q : list item) : list str :=
    filter wrth (remaining v (fulls es) (fullq Q)).

  Lemma ahead_pop : forall v s t Q, ahead v [] ((s, t) :: Q) = ahead s (tedges t) Q.
  Proof. intros v s [f es] Q. unfold ahead. f_equal. Qed.

  Lemma ahead_push : forall v c t es Q, alive alg x n v = true ->
    ahead v ((c, t) :: es) Q = (v ++ [c]) :: ahead v es (Q ++ [(v ++ [c], t)]).
  Proof.
    intros v c [f ts] es Q A. unfold ahead. cbn [fulls map fst snd full]. fold (fulls es). rewrite remaining_push.
    rewrite filter_app. cbn [filter]. unfold wrth, worth at 1. rewrite removelast_last, A. cbn [app]. f_equal. f_equal. f_equal.
    unfold fullq. rewrite map_app. reflexivity.
  Qed.

  Lemma ahead_drop : forall v es Q w t, alive alg x n w = false -> ahead v es (Q ++ [(w, t)]) = ahead v es Q.
  Proof.
    intros v es Q w t A. unfold ahead, remaining. apply enum_pruned. unfold fullq. rewrite map_app. cbn [map fst snd].
    rewrite flat_map_app. cbn [flat_map]. rewrite app_nil_r. apply pruned_app; [apply pruned_refl|].
    rewrite <- (app_nil_r (flat_map kids _)) at 2. apply pruned_app; [apply pruned_refl|]. apply worth_dead; auto.
  Qed.

  Definition rq := rquery h alg x n B (R := R).

  Lemma step_log : forall q v es Q, rq q v es Q -> has_work q = true ->
    exists broke q' v' es' Q',
      advance_step rt h alg x n q = Ok (broke, q') /\ rq q' v' es' Q' /\
      steps es' Q' < steps es Q /\
      ahead v es Q = tried q ++ ahead v' es' Q' /\
      (if broke : bool then
         exists w, filter good (remaining v es Q) = w :: filter good (remaining v' es' Q') /\ tried q = [w]
       else filter good (remaining v es Q) = filter good (remaining v' es' Q')).
  Proof.
    intros q v es Q [Hp He Hl Hc] HW. unfold advance_step, tried.
    destruct (q_edges q) as [|[c p] edges] eqn:Eq.
    - inversion He; subst. destruct (q_pending q) as [|i rest] eqn:Ep.
      { unfold has_work in HW. rewrite Eq, Ep in HW. discriminate. }
      inversion Hp as [|? [s t] ? Q' Hi Hr]; subst. destruct Hi as [I1 I2 I3 I4]. cbn [fst snd] in *.
      destruct (i_state i) as [|hd tl] eqn:Es.
      { destruct I3 as [(X & _) _]. congruence. }
      destruct (unf_read _ _ _ I2) as (nd & Rd & G & So & U & F). rewrite Rd. cbn [rbind].
      eexists false, _, s, (tedges t), Q'. split; [reflexivity|].
      split.
      { constructor; cbn [q_pending q_edges q_current q_i q_k]; auto.
        - intros c t' I. destruct t as [f es']. cbn [tedges] in I. pose proof (height_edge _ f _ _ I). lia.
        - intros _. exists i, hd, tl. rewrite Es. auto 10. }
      split. { destruct t as [f es']. apply steps_pop. }
      split; [apply ahead_pop|reflexivity].
    - destruct (Hc ltac:(discriminate)) as (i & hd & tl & C1 & C2 & C3 & C4 & C5 & C6).
      inversion He as [|? ? t ? es' Ut Ue]; subst.
      rewrite C1. cbn [deref rbind]. rewrite C5, C6, C3.
      pose proof (Hl c t (or_introl eq_refl)) as Lt. pose proof (height_pos t) as Hp1.
      assert (SB : forall a, a <= B -> small_depth a) by (unfold small_depth in *; lia).
      destruct (represents_step alg x n (i_str i) c hd tl Hx Hn ltac:(apply SB; lia) C4) as (cv & Ecv & o & Eo & Ho).
      rewrite Ecv. cbn [rbind]. rewrite Eo. cbn [rbind].
      assert (Al : alive alg x n (i_str i) = true).
      { apply alive_spec; auto. { apply SB. lia. } eapply represents_lives; eauto. }
      assert (Low' : forall c t, In (c, t) es' -> S (length (i_str i)) + height t <= S B).
      { intros. eapply Hl. right; eauto. }
      assert (Cur' : edges <> [] -> exists i0 hd0 tl0, Some i = Some i0 /\ i_str i0 = i_str i /\
        i_state i0 = hd0 :: tl0 /\ represents alg x n (i_str i) (hd0 :: tl0) /\
        ti hd = ti hd0 /\ query_k (query_a n) (N.of_nat (length x)) (ti hd) = query_k (query_a n) (N.of_nat (length x)) (ti hd0)).
      { intros _. exists i, hd, tl. auto 10. }
      assert (Sd : small_depth (length (i_str i ++ [c]))).
      { apply SB. rewrite app_length. cbn. lia. }
      destruct o as [st|].
      + destruct (unf_read _ _ _ Ut) as (nd & Rd & G & So & U & F). rewrite Rd. cbn [rbind].
        assert (Ri : ritem h alg x n B (ChildI c p st i) (i_str i ++ [c], t)).
        { constructor; cbn; auto. rewrite app_length. cbn. lia. }
        assert (Rp : Forall2 (ritem h alg x n B) (q_pending q ++ [ChildI c p st i]) (Q ++ [(i_str i ++ [c], t)])).
        { apply Forall2_app; auto. }
        destruct (represents_distance alg x n (i_str i ++ [c]) st Hx Hn Sd Ho) as [D1 D2].
        assert (Ah : ahead (i_str i) ((c, t) :: es') Q = [i_str i ++ [c]] ++ ahead (i_str i) es' (Q ++ [(i_str i ++ [c], t)])).
        { apply ahead_push; auto. }
        destruct t as [f ts]. cbn in F. subst f.
        destruct (nfin nd) eqn:Fn.
        * destruct (N.leb_spec (distance alg st (N.of_nat (length x))) n) as [Le|Gt].
          -- eexists true, _, (i_str i), es', _. split; [reflexivity|].
             split; [constructor; cbn; eauto|]. split; [apply steps_push|]. split; [exact Ah|].
             exists (i_str i ++ [c]). rewrite remaining_push, filter_app. cbn [filter].
             assert (good (i_str i ++ [c]) = true) as ->. { unfold good. apply N.leb_le, D1, Le. }
             split; reflexivity.
          -- eexists false, _, (i_str i), es', _. split; [reflexivity|].
             split; [constructor; cbn; eauto|]. split; [apply steps_push|]. split; [exact Ah|].
             rewrite remaining_push, filter_app. cbn [filter].
             assert (good (i_str i ++ [c]) = false) as ->.
             { unfold good. apply N.leb_gt. apply N.nle_gt. intros X. apply D1 in X. lia. }
             reflexivity.
        * eexists false, _, (i_str i), es', _. split; [reflexivity|].
          split; [constructor; cbn; eauto|]. split; [apply steps_push|]. split; [exact Ah|].
          rewrite remaining_push. reflexivity.
      + eexists false, _, (i_str i), es', Q. split; [reflexivity|].
        split; [constructor; cbn; eauto|]. split; [apply steps_skip|].
        split.
        * rewrite ahead_push by auto. cbn [app]. f_equal. apply ahead_drop.
          destruct (alive alg x n (i_str i ++ [c])) eqn:A; auto. apply alive_spec in A; auto.
          destruct A as (u & L). rewrite <- app_assoc in L. specialize (Ho u). cbn [app] in L. lia.
        * unfold remaining. apply enum_pruned. cbn [children map app].
          apply pruned_drop; [|apply pruned_refl].
          intros u. cbn. unfold good. apply N.leb_gt. rewrite <- app_assoc. apply Ho.
  Qed.

  Lemma no_work_ahead : forall q v es Q, rq q v es Q -> has_work q = false -> remaining v es Q = [] /\ ahead v es Q = [].
  Proof.
    intros q v es Q [Hp He _ _] H. unfold has_work in H.
    destruct (q_edges q); [|discriminate]. destruct (q_pending q); [|discriminate].
    inversion Hp; inversion He; subst. split; reflexivity.
  Qed.

  (** [L]: the answers still to come, [F]: the prefixes still to be tried. *)
  Definition to_come (q : query R) (M : nat) (L F : list str) : Prop :=
    exists v es Q, rq q v es Q /\ filter good (remaining v es Q) = L /\ ahead v es Q = F /\ steps es Q <= M.

  Lemma to_come_le : forall q M M' L F, to_come q M L F -> M <= M' -> to_come q M' L F.
  Proof. intros q M M' L F (v & es & Q & H1 & H2 & H3 & H4) Le. exists v, es, Q. repeat split; auto; try apply H1. lia. Qed.

  Definition ends_well (q' : query R) (M : nat) (L F log : list str) : Prop :=
    match L with
    | [] => F = log /\ to_come q' M [] []
    | w :: L' => exists l F', log = l ++ [w] /\ F = log ++ F' /\ to_come q' M L' F'
    end.

  Lemma log_loop_ok : forall fuel q v es Q, rq q v es Q -> has_work q = true -> steps es Q < fuel ->
    exists log q', log_loop rt h alg x n fuel q = Ok (log, q') /\
      ends_well q' (steps es Q) (filter good (remaining v es Q)) (ahead v es Q) log.
  Proof.
    induction fuel as [|fuel IH]; intros q v es Q Hq HW Hf; [lia|].
    destruct (step_log q v es Q Hq HW) as (broke & q' & v' & es' & Q' & E & Hq' & Hs & Ha & Hb).
    cbn [log_loop]. rewrite E. cbn [rbind]. destruct broke.
    - destruct Hb as (w & Ew & Tw). exists (tried q), q'. split; auto. rewrite Ew. cbn.
      exists [], (ahead v' es' Q'). rewrite Tw in *. split; auto. split; auto.
      exists v', es', Q'. repeat split; auto; try apply Hq'. lia.
    - rewrite Hb. destruct (has_work q') eqn:HW'.
      + destruct (IH q' v' es' Q' Hq' HW' ltac:(lia)) as (log & q2 & E2 & X). rewrite E2. cbn [rbind].
        exists (tried q ++ log), q2. split; auto. rewrite Ha.
        destruct (filter good (remaining v' es' Q')) as [|w L]; cbn in *.
        * destruct X as [-> X]. split; auto. eapply to_come_le; eauto. lia.
        * destruct X as (l & F' & -> & -> & X). exists (tried q ++ l), F'. rewrite !app_assoc. split; auto. split; auto.
          eapply to_come_le; eauto. lia.
      + exists (tried q), q'. split; auto. destruct (no_work_ahead _ _ _ _ Hq' HW') as [E0 E1]. rewrite E0, Ha, E1. cbn.
        rewrite app_nil_r. split; auto. exists v', es', Q'. rewrite E0, E1. repeat split; auto; try apply Hq'. lia.
  Qed.

  Lemma log_advance_ok : forall q M L F fuel, to_come q M L F -> M < fuel ->
    exists log q', log_advance rt h alg x n fuel q = Ok (log, q') /\ ends_well q' M L F log.
  Proof.
    intros q M L F fuel (v & es & Q & Hq & HL & HF & HM) Hf. unfold log_advance.
    assert (Hq' : rq (set_complete q) v es Q).
    { destruct Hq. constructor; auto. }
    destruct (has_work q) eqn:HW.
    - destruct (log_loop_ok fuel (set_complete q) v es Q Hq' HW ltac:(lia)) as (log & q' & E & X).
      exists log, q'. split; auto. rewrite HL, HF in X. destruct L as [|w L]; cbn in *.
      + destruct X as [X1 X2]. split; auto. eapply to_come_le; eauto.
      + destruct X as (l & F' & X1 & X2 & X3). exists l, F'. split; auto. split; auto. eapply to_come_le; eauto.
    - exists [], (set_complete q). split; auto. destruct (no_work_ahead _ _ _ _ Hq HW) as [E0 E1].
      rewrite E0 in HL. cbn in HL. rewrite E1 in HF. subst L F. split; auto.
      exists v, es, Q. rewrite E0, E1. split; auto.
  Qed.

  Lemma log_increments_ok : forall k q M L F fuel, to_come q M L F -> M < fuel ->
    exists log q', log_increments rt h alg x n fuel k q = Ok (log, q') /\
      match k with
      | O => log = []
      | S k' => match nth_error L k' with
                | Some w => exists l F', log = l ++ [w] /\ F = log ++ F'
                | None => log = F
                end
      end.
  Proof.
    induction k as [|k IH]; intros q M L F fuel A Hf; cbn [log_increments].
    - exists [], q. auto.
    - destruct (log_advance_ok q M L F fuel A Hf) as (log & q1 & E1 & X). rewrite E1. cbn [rbind].
      destruct L as [|w L]; cbn in X.
      + destruct X as [-> X]. destruct (IH q1 M [] [] fuel X Hf) as (log' & q2 & E2 & Y). rewrite E2. cbn [rbind].
        eexists _, q2. split; [reflexivity|]. assert (log' = []) as ->.
        { destruct k; auto. destruct k; auto. }
        rewrite app_nil_r. destruct k; reflexivity.
      + destruct X as (l & F' & -> & -> & X). destruct (IH q1 M L F' fuel X Hf) as (log' & q2 & E2 & Y). rewrite E2. cbn [rbind].
        eexists _, q2. split; [reflexivity|]. destruct k as [|k].
        * subst log'. cbn. exists l, F'. rewrite app_nil_r. auto.
        * change (nth_error (w :: L) (S k)) with (nth_error L k). destruct (nth_error L k) as [w'|].
          -- destruct Y as (l' & F2 & -> & ->). exists ((l ++ [w]) ++ l'), F2. rewrite <- !app_assoc. auto.
          -- subst log'. auto.
  Qed.

  Variables (root : ptr) (t : tree).
  Hypothesis Ht : unf h root t.
  Hypothesis Hh : height t <= S B.

  Lemma log_after_ok : forall k, exists M, forall fuel, M < fuel ->
    exists log q, log_after rt fuel h (Transducer alg (RootI root initial_state)) x n k = Ok (log, q) /\
      match nth_error (filter good (words t)) k with
      | Some w => (w = [] /\ log = []) \/ exists l F', log = l ++ [w] /\ ahead [] [] [([], t)] = log ++ F'
      | None => log = ahead [] [] [([], t)]
      end.
  Proof.
    intros k. exists (steps [] [([], t)]). intros fuel Hf. unfold log_after, log_new. cbn [tr_root tr_alg i_node].
    destruct (unf_read _ _ _ Ht) as (nd & Rd & G & So & U & Fi). rewrite Rd. cbn [rbind].
    set (q0 := fun cand : R => Query [RootI root initial_state] [] false None cand 0%N 0%N).
    assert (Hq : forall cand, rq (q0 cand) [] [] [([], t)]).
    { intros cand. constructor; cbn.
      - constructor; [constructor; cbn; auto using represents_initial|constructor].
      - constructor.
      - tauto.
      - congruence. }
    assert (Ew : words t = (if nfin nd then [[]] else []) ++ remaining [] [] [([], t)]).
    { unfold words, remaining. destruct t as [f es]. cbn in Fi. subst f. rewrite enum_cons.
      cbn [children map app flat_map kids fst snd tedges]. rewrite app_nil_r. reflexivity. }
    assert (Hd : dst alg x [] = length x) by (apply dst_nil_r).
    assert (Hg : good [] = (N.of_nat (length x) <=? n)%N) by (unfold good; rewrite Hd; auto).
    assert (Tc : forall cand, to_come (q0 cand) (steps [] [([], t)]) (filter good (remaining [] [] [([], t)])) (ahead [] [] [([], t)])).
    { intros. exists [], [], [([], t)]. auto. }
    assert (Adv : filter good (words t) = filter good (remaining [] [] [([], t)]) ->
      exists log q, (do (log, q) <- log_advance rt h alg x n fuel (q0 (r_default rt));
        do (log', q') <- log_increments rt h alg x n fuel k q; Ok (log ++ log', q')) = Ok (log, q) /\
      match nth_error (filter good (words t)) k with
      | Some w => (w = [] /\ log = []) \/ exists l F', log = l ++ [w] /\ ahead [] [] [([], t)] = log ++ F'
      | None => log = ahead [] [] [([], t)]
      end).
    { intros E. destruct (log_increments_ok (S k) (q0 (r_default rt)) _ _ _ fuel (Tc _) Hf) as (log & q & E1 & X).
      exists log, q. split; [exact E1|]. rewrite E. cbv iota in X.
      destruct (nth_error (filter good (remaining [] [] [([], t)])) k); auto. }
    destruct (nfin nd) eqn:Fn; cbn [andb].
    - rewrite <- Hg. destruct (good []) eqn:Gd.
      + cbn [rbind app]. rewrite Ew, filter_app. cbn [filter]. rewrite Gd.
        destruct (log_increments_ok k (q0 (r_update rt [] (N.of_nat (length x)))) _ _ _ fuel (Tc _) Hf) as (log & q & E1 & X).
        exists log, q. fold (q0 (r_update rt [] (N.of_nat (length x)))). rewrite E1. split; auto.
        destruct k as [|k]; [left; auto|]. cbn [app nth_error]. cbv iota in X.
        destruct (nth_error (filter good (remaining [] [] [([], t)])) k); auto.
      + apply Adv. rewrite Ew, filter_app. cbn [filter]. rewrite Gd. auto.
    - apply Adv. rewrite Ew. auto.
  Qed.
End Run.

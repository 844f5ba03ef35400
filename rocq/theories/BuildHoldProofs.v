(** * BuildHoldProofs: how many nodes exist while a dictionary is built, and after. *)
From Coq Require Import Sorting.Sorted Sorting.Permutation.
From Verif Require Import Base Spec ModelHash ModelDawg SpecDawg SpecCost TreeProofs HeapProofs BuildProofs BuildProofs2 DawgProofs
  IterProofs BoundProofs SizeProofs DestroyProofs BuildCostProofs.
Local Open Scope nat_scope.

(** ** Sizes of trees *)
Definition esizes (es : list (char * tree)) : nat := sizes (map snd es).

Lemma esizes_cons c t es : esizes ((c, t) :: es) = tsize t + esizes es.
Proof. reflexivity. Qed.

Lemma edge_set_sizes es c a b : esizes (edge_set es c a) + tsize b = esizes (edge_set es c b) + tsize a.
Proof.
  induction es as [|[d t] es IH]; cbn [edge_set]; [rewrite !esizes_cons; cbn; lia|].
  destruct (ceqb c d); [rewrite !esizes_cons; lia|]. destruct (schar c <? schar d)%Z; rewrite !esizes_cons; lia.
Qed.

Lemma edge_set_new es c a : edge_get es c = None -> esizes (edge_set es c a) = esizes es + tsize a.
Proof.
  induction es as [|[d t] es IH]; cbn [edge_set edge_get]; intros E; [rewrite esizes_cons; cbn; lia|].
  destruct (ceqb c d); [discriminate|]. destruct (schar c <? schar d)%Z; rewrite !esizes_cons; [lia|]. rewrite IH by auto. lia.
Qed.

Lemma tsize_edges t : tsize t = S (esizes (tedges t)).
Proof. destruct t as [f es]. apply sizes_edges. Qed.

Lemma fill_sizes frs : forall a b, tsize (fill frs a) + tsize b = tsize (fill frs b) + tsize a.
Proof.
  induction frs as [|[[f es] c] frs IH]; intros a b; cbn [fill]; [lia|].
  specialize (IH (T f (edge_set es c a)) (T f (edge_set es c b))). rewrite !(tsize_edges (T _ _)) in IH. cbn [tedges] in IH.
  pose proof (edge_set_sizes es c a b). lia.
Qed.

Lemma tadd_leaf w : tsize (tadd leaf w) = S (length w).
Proof.
  induction w as [|c w IH]; [reflexivity|]. cbn [tadd]. rewrite tsize_edges. cbn [tedges leaf].
  change (tget leaf c) with leaf. unfold esizes. cbn. fold (sizes []). unfold sizes. cbn. rewrite IH. lia.
Qed.

Lemma tadd_new t w : (forall c w', w = c :: w' -> edge_get (tedges t) c = None) -> tsize (tadd t w) = tsize t + length w.
Proof.
  intros H. destruct w as [|c w]; cbn [tadd length].
  - rewrite !tsize_edges. cbn [tedges]. lia.
  - specialize (H c w eq_refl). rewrite !(tsize_edges (T _ _)), (tsize_edges t). cbn [tedges]. rewrite edge_set_new by exact H.
    unfold tget. rewrite H. rewrite tadd_leaf. lia.
Qed.

(** ** The nodes a dictionary under construction owns *)
Lemma minimize_loop_floating : forall k fuel h w h' w', minimize_loop k fuel h w = Ok (h', w') -> w_floating w' = w_floating w.
Proof.
  induction k as [|k IH]; intros fuel h w h' w' E; cbn [minimize_loop] in E; [injection E as _ <-; reflexivity|].
  destruct (w_unchecked w) as [|[label source target] rest]; [discriminate|].
  destruct (minimized_node fuel h (w_minimized w) target) as [x| |]; try discriminate. cbn [rbind] in E.
  destruct (N.eqb x null).
  - destruct (add_edge h source label target) as [h1| |]; try discriminate. cbn [rbind] in E.
    destruct (map_assign fuel h1 (w_minimized w) target) as [m| |]; try discriminate. cbn [rbind] in E.
    apply IH in E. exact E.
  - destruct (add_edge h source label x) as [h1| |]; try discriminate. cbn [rbind] in E. apply IH in E. exact E.
Qed.

Lemma push_suffix_floating alloc : allocator alloc -> forall rest h w source h' w' last,
  push_suffix alloc h w source rest = (h', w', last) -> (forall p, In p (w_floating w) -> allocated h p) ->
  length (w_floating w') = length (w_floating w) + length rest.
Proof.
  intros A. induction rest as [|c rest IH]; intros h w source h' w' last E Al; cbn [push_suffix] in E.
  - injection E as _ <- _. cbn. lia.
  - unfold new_node in E. destruct (A h) as [_ Fr].
    assert (Nin : ~ In (alloc h) (w_floating w)) by (intros I; apply (Al _ I); exact Fr).
    apply IH in E; cbn [w_floating] in *.
    + rewrite E. unfold set_insert. destruct (set_mem (alloc h) (w_floating w)) eqn:M; [apply set_mem_In in M; contradiction|].
      rewrite app_length. cbn [length]. lia.
    + intros p I. apply set_insert_In in I. destruct (N.eq_dec p (alloc h)) as [->|Np].
      * unfold allocated. rewrite hget_hset_same. discriminate.
      * unfold allocated. rewrite hget_hset_other by auto. destruct I as [I|I]; [congruence|]. apply Al, I.
Qed.

Lemma add_counts alloc B h0 h b t w frs t0 term h' b' w' : allocator alloc ->
  binv B h0 h b t w frs t0 -> length term < B -> ~ lex_lt term (b_prev b) ->
  add B alloc h b term = Ok (true, h', b') -> b_work b' = Some w' ->
  length (w_floating w') + tsize t = length (w_floating w) + tsize (tadd t term).
Proof.
  intros A BI Lt NL Ea Hw'. destruct BI as [Hw I Ht Hh Hp Hn].
  set (root := d_root (b_dawg b)) in *. set (i := common_prefix term (b_prev b)).
  destruct (common_prefix_spec term (b_prev b) NL) as (L1 & L2 & Fe & D). fold i in L1, L2, Fe, D.
  assert (Lun : length (w_unchecked w) = length (b_prev b)).
  { rewrite <- Hp. rewrite labels_length. auto. }
  destruct (minimize_loop_keeps (length (w_unchecked w) - i) B h0 h root w frs t0 I)
    as (h1 & w1 & frs1 & t1 & E1 & I1 & F1 & U1 & D1 & _); [rewrite Ht; auto | lia |].
  assert (La1 : labels (w_unchecked w1) = firstn i term).
  { rewrite U1, labels_skipn by lia. rewrite Hp, Fe. f_equal. lia. }
  assert (New : forall c rest, skipn i term = c :: rest -> edge_get (tedges t1) c = None).
  { intros c rest Er. destruct (unf_inv _ _ _ (iv_top _ _ _ _ _ _ _ I1)) as (n & _ & G & _ & Us & _).
    pose proof (unfs_get _ _ _ c Us) as X. destruct (edge_get (nedges n) c) as [q|] eqn:Ge; [|exact X]. exfalso.
    apply edge_get_In in Ge.
    destruct (length (w_unchecked w) - i) as [|k] eqn:Ek.
    - destruct D1 as [-> ->]. apply Hn in G. rewrite G in Ge. destruct Ge.
    - destruct D1 as (tr & n' & Nth & G' & Le). rewrite G in G'. injection G' as <-. specialize (Le _ _ Ge).
      destruct D as [D|(a & b0 & u' & v' & Sk & Nb & _ & Lab)]; [lia|].
      apply labels_nth in Nth. rewrite Hp in Nth.
      replace (length (w_unchecked w) - S k) with i in Nth by lia.
      rewrite Nb in Nth. injection Nth as ->. rewrite Sk in Er. injection Er as -> _. lia. }
  assert (Tr : tadd t term = fill frs1 (tadd t1 (skipn i term))).
  { rewrite <- Ht, <- F1. rewrite <- tadd_fill. rewrite (frames_labels _ _ _ _ (iv_frames _ _ _ _ _ _ _ I1)), La1.
    rewrite firstn_skipn. auto. }
  assert (Sz : tsize (tadd t term) = tsize t + length (skipn i term)).
  { rewrite Tr. pose proof (fill_sizes frs1 (tadd t1 (skipn i term)) t1) as X. rewrite tadd_new in X by exact New.
    rewrite F1, Ht in X. lia. }
  assert (Fl : length (w_floating w') = length (w_floating w) + length (skipn i term)); [|lia].
  assert (Es : str_ltb term (b_prev b) = false).
  { destruct (str_ltb term (b_prev b)) eqn:Es; [apply str_ltb_lex in Es; tauto|auto]. }
  assert (term = [] \/ term <> []) as [Eterm|Eterm] by (destruct term; [auto|right; discriminate]).
  - rewrite Eterm in *. rewrite add_empty in Ea by auto.
    destruct (set_final h (d_root (b_dawg b)) true) as [h2| |]; try discriminate. cbn [rbind] in Ea. injection Ea as _ <-.
    cbn [b_work] in Hw'. rewrite Hw in Hw'. injection Hw' as <-. rewrite skipn_nil. cbn. lia.
  - rewrite add_nonempty in Ea by auto. rewrite Hw in Ea. cbn [deref rbind] in Ea. fold i in Ea. unfold minimize in Ea.
    pose proof (E1 B (le_n _)) as E1'. rewrite E1' in Ea. cbn [rbind] in Ea. fold root in Ea.
    destruct (push_suffix alloc h1 w1 (top root (w_unchecked w1)) (skipn i term)) as [[h2 w2] last] eqn:E2.
    destruct (set_final h2 last true) as [h3| |]; try discriminate. cbn [rbind] in Ea. injection Ea as _ <-.
    cbn [b_work] in Hw'. injection Hw' as <-.
    rewrite (push_suffix_floating alloc A _ _ _ _ _ _ _ E2), (minimize_loop_floating _ _ _ _ _ _ E1'); [reflexivity|].
    intros p J. apply (iv_own _ _ _ _ _ _ _ I1). right. exact J.
Qed.

Lemma adds_counts alloc : allocator alloc -> forall ts B h0 h b t w frs t0,
  binv B h0 h b t w frs t0 -> short B ts ->
  exists flags kept h' b' w' frs' t0',
    greedy (b_prev b) ts flags kept /\
    (forall fuel, B <= fuel -> adds fuel alloc h b ts = Ok (flags, h', b')) /\
    binv B h0 h' b' (trie_from t kept) w' frs' t0' /\
    length (w_floating w') + tsize t = length (w_floating w) + tsize (trie_from t kept).
Proof.
  intros A. induction ts as [|x ts IH]; intros B h0 h b t w frs t0 BI Sh.
  - exists [], [], h, b, w, frs, t0. split; [constructor|]. split; [auto|]. split; [auto|]. reflexivity.
  - apply short_cons in Sh. destruct Sh as [Lx Sh].
    destruct (lex_lt_dec x (b_prev b)) as [L|L].
    + destruct (IH B h0 h b t w frs t0 BI Sh) as (flags & kept & h' & b' & w' & frs' & t0' & G & E & BI' & S).
      exists (false :: flags), kept, h', b', w', frs', t0'. split; [constructor; auto|].
      split; [|auto]. intros fuel Hf. cbn. rewrite add_reject by auto. cbn. rewrite E by auto. auto.
    + destruct (add_ok alloc B h0 h b t w frs t0 x A BI Lx L) as (h1 & b1 & w1 & frs1 & t1 & E1 & BI1 & P1 & _).
      destruct (IH B h0 h1 b1 _ w1 frs1 t1 BI1 Sh) as (flags & kept & h' & b' & w' & frs' & t0' & G & E & BI' & S).
      exists (true :: flags), (x :: kept), h', b', w', frs', t0'.
      split. { constructor; auto. rewrite <- P1. auto. }
      split. { intros fuel Hf. cbn. rewrite E1 by auto. cbn. rewrite E by auto. auto. }
      split; [exact BI'|].
      pose proof (add_counts alloc B h0 h b t w frs t0 x h1 b1 w1 A BI Lx L (E1 B (le_n _)) (bi_work _ _ _ _ _ _ _ _ BI1)).
      change (trie_from t (x :: kept)) with (trie_from (tadd t x) kept). lia.
Qed.

Lemma construction_counts alloc h0 ts : allocator alloc ->
  exists B flags kept h b w frs t0,
    greedy [] ts flags kept /\
    (forall fuel, B <= fuel -> under_construction fuel alloc h0 ts = Ok (flags, h, b)) /\
    binv B h0 h b (trie kept) w frs t0 /\ S (length (w_floating w)) = tsize (trie kept).
Proof.
  intros A. destruct (short_ex ts) as (B & HB & Sh).
  destruct (new_init alloc h0) as (h1 & b1 & E1).
  destruct (new_sorted_dawg_ok alloc B h0 A HB h1 b1 E1) as (BI & P1 & _).
  destruct (adds_counts alloc A ts B h0 h1 (init b1) leaf _ _ _ BI Sh) as
    (flags & kept & h2 & b2 & w2 & frs2 & t2 & G & E2 & BI2 & S).
  exists B, flags, kept, h2, b2, w2, frs2, t2. rewrite P1 in G. split; [exact G|]. split.
  { intros fuel Hf. unfold under_construction. rewrite E1. auto. }
  split; [exact BI2|]. unfold trie. cbn in S. lia.
Qed.

Lemma inv_new B h0 h root w frs t0 : inv B h0 h root w frs t0 ->
  NoDup (root :: w_floating w) /\ forall p, In p (root :: w_floating w) <-> ~ allocated h0 p /\ allocated h p.
Proof.
  intros I. split; [apply (iv_float _ _ _ _ _ _ _ I)|]. intros p. split.
  - intros J. destruct (iv_own _ _ _ _ _ _ _ I p J) as (_ & Al & E). unfold allocated in *. rewrite E. tauto.
  - intros [N1 N2]. destruct (in_dec N.eq_dec p (root :: w_floating w)) as [|X]; [assumption|exfalso].
    unfold allocated in *. rewrite (iv_base _ _ _ _ _ _ _ I p X) in N2. contradiction.
Qed.

(** ** The nodes of a finished dictionary *)
Lemma path_sub h : forall w p t q, unf h p t -> path h p w q -> has t w /\ unf h q (sub t w).
Proof.
  induction w as [|c w IH]; intros p t q U P; inversion P as [|? n ? r ? ? G I P']; subst; cbn [has sub]; [auto|].
  inversion U as [? n' es Np G' So Us]; subst. rewrite G in G'. injection G' as <-.
  pose proof (unfs_get _ _ _ c Us) as X. rewrite (edge_In_get _ _ _ _ So I) in X. destruct X as (t' & E & U').
  unfold tget. cbn [tedges]. rewrite E. eauto.
Qed.

Lemma sub_path h : forall w p t, unf h p t -> has t w -> exists q, path h p w q.
Proof.
  induction w as [|c w IH]; intros p t U H; cbn [has] in H; [exists p; constructor|].
  inversion U as [? n es Np G So Us]; subst. cbn [tedges] in H.
  pose proof (unfs_get _ _ _ c Us) as X. destruct (edge_get (nedges n) c) as [r|] eqn:Ge; [|rewrite X in H; destruct H].
  destruct X as (t' & E & U'). rewrite E in H. destruct (IH r t' U' H) as (q & P).
  exists q. econstructor; eauto. now apply edge_get_In.
Qed.

Lemma built_counts h0 h d ts reps : built h0 h d ts -> representatives ts reps ->
  exists ps, NoDup ps /\ (forall p, In p ps <-> ~ allocated h0 p /\ allocated h p) /\ length ps = S (length reps).
Proof.
  intros Bu (ND & Pre & Inj & All). destruct Bu as [U _ Mi Nw Rest]. set (root := d_root d) in *.
  assert (X : forall l, incl l reps -> exists ps, Forall2 (fun r p => path h root r p) l ps).
  { induction l as [|r l IH]; intros Ic; [exists []; constructor|]. destruct IH as (ps & F); [intros x J; apply Ic; now right|].
    destruct (Pre r (Ic r (or_introl eq_refl))) as (Nr & Hr). apply has_trie in Hr; [|exact Nr].
    destruct (sub_path h r root _ U Hr) as (q & P). exists (q :: ps). constructor; auto. }
  destruct (X reps (incl_refl _)) as (ps & F).
  assert (In1 : forall p, In p ps -> exists r, In r reps /\ path h root r p).
  { clear -F. induction F as [|r p l ps P F IH]; intros q J; [destruct J|]. destruct J as [<-|J]; [exists r; split; [now left|auto]|].
    destruct (IH q J) as (r' & J' & P'). exists r'. split; [now right|auto]. }
  assert (In2 : forall r, In r reps -> exists p, In p ps /\ path h root r p).
  { clear -F. induction F as [|r p l ps P F IH]; intros q J; [destruct J|]. destruct J as [<-|J]; [exists p; split; [now left|auto]|].
    destruct (IH q J) as (r' & J' & P'). exists r'. split; [now right|auto]. }
  assert (Proper : forall w p, w <> [] -> path h root w p -> p <> root).
  { intros w p Nw' P ->. destruct w as [|c w]; [congruence|]. inversion P as [|? n ? r ? ? G I P']; subst.
    destruct (unf_inv _ _ _ U) as (n' & Np & G' & _ & Us & _). rewrite G in G'. injection G' as <-.
    destruct (unfs_In _ _ _ _ _ Us I) as (t' & Jt & Ut).
    assert (R : reach h r root) by (exists w; exact P').
    destruct (unf_reach _ _ _ R _ Ut) as (t2 & U2 & Hl).
    pose proof (unf_det _ _ _ _ U2 U) as ->.
    assert (Lt : height t' < height (trie ts)) by (destruct (trie ts); eapply height_edge; eauto).
    destruct Hl as [[E _]|L]; [rewrite E in Lt; lia|lia]. }
  exists (root :: ps). split; [|split].
  - constructor.
    + intros J. destruct (In1 _ J) as (r & Jr & P). destruct (Pre r Jr) as (Nr & _). exact (Proper r root Nr P eq_refl).
    + clear -F ND Pre Inj U Mi. revert ND Pre Inj. induction F as [|r p l ps P F IH]; intros ND Pre Inj; constructor; inversion ND; subst.
      * intros J. assert (exists s, In s l /\ path h root s p) as (s & Js & Ps).
        { clear -F J. induction F as [|s q l ps P F IH]; [destruct J|]. destruct J as [->|J]; [exists s; split; [now left|auto]|].
          destruct (IH J) as (s' & J' & P'). exists s'. split; [now right|auto]. }
        destruct (path_sub h r root _ p U P) as (_ & U1). destruct (path_sub h s root _ p U Ps) as (_ & U2).
        pose proof (unf_det _ _ _ _ U1 U2) as E. apply sub_same in E.
        assert (r = s) by (apply Inj; auto; [now left|now right]). subst. contradiction.
      * apply IH; auto; intros; [apply Pre; now right|apply Inj; auto; now right].
  - assert (Re : forall p, In p (root :: ps) <-> reach h root p).
    { intros p. split.
      - intros [<-|J]; [apply reach_refl|]. destruct (In1 _ J) as (r & _ & P). exists r. exact P.
      - intros (w & P). destruct w as [|c w]; [inversion P; now left|]. right.
        destruct (path_sub h _ _ _ _ U P) as (Hw & Uw). apply has_trie in Hw; [|discriminate]. destruct Hw as (u & J).
        destruct (All (c :: w) u ltac:(discriminate) J) as (r & Jr & Sm). destruct (In2 r Jr) as (q & Jq & Pq).
        destruct (path_sub h _ _ _ _ U Pq) as (_ & Uq). apply sub_same in Sm. rewrite Sm in Uw.
        assert (p = q) as ->; [|exact Jq]. eapply Mi; eauto; eexists; eauto. }
    intros p. rewrite Re. split.
    + intros R. unfold allocated. rewrite (Nw _ R). destruct (unf_reach_alloc _ _ _ _ U R) as (_ & n & G). rewrite G.
      split; [tauto|discriminate].
    + intros [N1 N2]. destruct (in_dec N.eq_dec p (root :: ps)) as [J|J]; [now apply Re|]. exfalso.
      rewrite Re in J. unfold allocated in *. rewrite (Rest _ J) in N2. contradiction.
  - cbn. f_equal. clear -F. induction F; cbn; auto.
Qed.

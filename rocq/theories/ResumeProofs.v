(** * ResumeProofs: adding after finish(). *)
From Coq Require Import Sorting.Sorted.
From Verif Require Import Base Spec ModelHash ModelDawg SpecDawg TreeProofs HeapProofs
  BuildProofs BuildProofs2 IterProofs DawgProofs SpecResume ReopenProofs.

Lemma tin_fill : forall frs t w, tin (fill frs t) (flabels frs ++ w) = tin t w.
Proof.
  induction frs as [|[[f es] c] frs IH]; intros t w; cbn; auto.
  unfold flabels in *. cbn. rewrite <- app_assoc. cbn [app]. rewrite IH. cbn.
  rewrite edge_get_set, ceqb_refl. auto.
Qed.

Lemma useful_fill : forall frs t, useful (fill frs t) -> useful t.
Proof.
  induction frs as [|[[f es] c] frs IH]; intros t U; cbn in *; auto.
  apply IH in U. inversion U as [? ? _ F]; subst.
  rewrite Forall_forall in F. apply (F (c, t)). apply edge_get_In. rewrite edge_get_set, ceqb_refl. auto.
Qed.

Lemma unfs_In : forall h es ts, unfs h es ts -> forall c q, In (c, q) es -> exists t, In (c, t) ts.
Proof.
  intros h es. induction es as [|[c q] es IH]; intros ts U d r I; [destruct I|].
  inversion U; subst. destruct I as [E|I].
  - injection E as -> ->. exists t. left; auto.
  - destruct (IH _ H4 _ _ I) as (t' & I'). exists t'. right; auto.
Qed.

(** The nodes of a dictionary but its root. *)
Definition inner (h : heap) (root : ptr) (p : ptr) : Prop := reach h root p /\ p <> root.

(** What the calls have left behind so far: since they began in memory [h1], and
    since the last call of init in memory [h0]. *)
Record open (B : nat) (h1 h0 h : heap) (b : builder) (stored : list str) (path : str)
    (w : work) (frs : list frame) (t0 : tree) : Prop := {
  op_work : b_work b = Some w;
  op_inv : rinv (inner h0 (d_root (b_dawg b))) B h0 h (d_root (b_dawg b)) w frs t0;
  op_tree : fill frs t0 = trie stored;
  op_height : height (trie stored) <= B;
  op_path : labels (w_unchecked w) = path;
  op_short : length path <= length (b_prev b);
  op_size : d_size (b_dawg b) = (N.of_nat (length stored) mod W)%N;
  op_unf : exists t, unf h0 (d_root (b_dawg b)) t;
  op_more : forall p, reach h0 (d_root (b_dawg b)) p -> reach h1 (d_root (b_dawg b)) p \/ hget h1 p = None;
  op_less : forall p, reach h1 (d_root (b_dawg b)) p -> reach h0 (d_root (b_dawg b)) p;
  op_else : forall p, ~ reach h0 (d_root (b_dawg b)) p -> hget h0 p = hget h1 p;
}.

Lemma inner_closed : forall h root t, unf h root t -> closed h (inner h root).
Proof.
  intros h root t U p n c q (R & N) G J. split; [eapply reach_step; eauto|]. intros ->.
  destruct (reach_proper _ _ _ _ U R N) as (t' & U' & Lt).
  destruct (unf_inv _ _ _ U') as (n' & _ & G' & So & Us & _). assert (n' = n) by congruence. subst n'.
  pose proof (unfs_get _ _ _ c Us) as X. rewrite (edge_In_get _ _ _ _ So J) in X. destruct X as (t2 & Gt & U2).
  assert (t2 = t) by (eapply unf_det; eauto). subst t2. apply edge_get_In in Gt.
  destruct t' as [f es]. cbn [tedges] in Gt. apply (height_edge _ f) in Gt. lia.
Qed.

(** Where the calls begin, and where they begin again. *)
Lemma opened : forall B h1 h0 b stored root size prev, b_dawg b = Dawg root size -> b_prev b = prev ->
  unf h0 root (trie stored) -> height (trie stored) <= B -> size = (N.of_nat (length stored) mod W)%N ->
  (forall p, reach h0 root p -> reach h1 root p \/ hget h1 p = None) ->
  (forall p, reach h1 root p -> reach h0 root p) ->
  (forall p, ~ reach h0 root p -> hget h0 p = hget h1 p) ->
  open B h1 h0 h0 (init b) stored [] (Work [] [] []) [] (trie stored).
Proof.
  intros B h1 h0 b stored root size prev Ed Ep U Hh Hz M L E. unfold init. rewrite Ed, Ep.
  destruct (unf_inv _ _ _ U) as (n & NN & G & So & Us & Fi).
  constructor; cbn [b_work b_dawg d_root d_size b_prev w_unchecked fill]; auto; try (cbn; lia); eauto.
  constructor; cbn [w_unchecked w_minimized w_floating]; auto.
  - constructor.
  - constructor; [intros ? []| | |intros ? ? ? []].
    + intros p (R & N). destruct (reach_proper _ _ _ _ U R N) as (t' & U' & _). eauto.
    + intros p n' c q [J|[]] Gp K. left. eapply inner_closed; eauto.
  - constructor; [intros []|constructor].
  - intros p [<-|[]] [[_ X]|[]]. auto.
  - intros p [<-|[]]. exists n. split; auto. split; auto. intros c q J. left. split.
    + eapply reach_step; eauto. apply reach_refl.
    + intros ->. pose proof (unfs_get _ _ _ c Us) as X. rewrite (edge_In_get _ _ _ _ So J) in X. destruct X as (t2 & Gt & U2).
      assert (t2 = trie stored) by (eapply unf_det; eauto). subst t2. apply edge_get_In in Gt.
      destruct (trie stored) as [f es]. cbn [tedges] in Gt. apply (height_edge _ f) in Gt. lia.
  - constructor; [intros []|constructor].
  - intros ? [].
  - intros ? [].
  - intros p [<-|[]]. split; auto. unfold allocated. congruence.
  - intros ? [].
  - intros n0 c q G0 J. exists n0. auto.
Qed.

(** The nodes that were there are still there. *)
Lemma reach_still : forall B h0 h root w frs t0, rinv (inner h0 root) B h0 h root w frs t0 ->
  (exists t, unf h0 root t) -> forall p, reach h0 root p -> reach h root p.
Proof.
  intros B h0 h root w frs t0 I (t & U) p R.
  assert (C : closed h0 (fun p => reach h0 root p /\ reach h root p)).
  { intros x n c y (Rx & Ry) G J. split; [eapply reach_step; eauto|].
    destruct (N.eq_dec x root) as [->|N].
    - destruct (rv_kept _ _ _ _ _ _ _ _ I n c y G J) as (n' & G' & J'). eapply reach_step; eauto.
    - eapply reach_step; [exact Ry| |exact J].
      rewrite (rv_base _ _ _ _ _ _ _ _ I); auto. intros [X|X]; [congruence|].
      apply (rv_new _ _ _ _ _ _ _ _ I) in X. congruence. }
  apply (closed_reach _ _ root p C); auto. split; apply reach_refl.
Qed.

Lemma differ_common : forall p r r', differ r r' -> common_prefix (p ++ r) (p ++ r') = length p.
Proof.
  induction p as [|c p IH]; intros r r' D; cbn.
  - destruct r as [|c r], r' as [|d r']; auto. cbn in D. cbn. destruct (ceqb_spec c d) as [[E _]|[_ E]]; [tauto|].
    rewrite E. auto.
  - rewrite ceqb_refl, IH; auto.
Qed.

Lemma skipn_length_app : forall A (p r : list A), skipn (length p) (p ++ r) = r.
Proof. induction p; cbn; auto. Qed.

Lemma enter_ok : forall alloc B h1 h0 h b stored path w frs t0 p r r', allocator alloc ->
  open B h1 h0 h b stored path w frs t0 -> length (p ++ r) < B ->
  b_prev b = p ++ r' -> differ r r' -> ~ lex_lt (p ++ r) (b_prev b) ->
  room stored (firstn (length p) path) r ->
  exists h' b' w' frs' t0',
    (forall fuel, B <= fuel -> add fuel alloc h b (p ++ r) = Ok (true, h', b')) /\
    open B h1 h0 h' b' (stored ++ [firstn (length p) path ++ r]) (firstn (length p) path ++ r) w' frs' t0' /\
    b_prev b' = p ++ r /\ d_root (b_dawg b') = d_root (b_dawg b).
Proof.
  intros alloc B hs h0 h b stored path w frs t0 p r r' A [Hw I Ht Hh Hl Hs Hz Hu M1 M2 M3] Lt Ep D NL Ab.
  set (root := d_root (b_dawg b)) in *.
  set (i := length p) in *.
  assert (Ci : common_prefix (p ++ r) (b_prev b) = i) by (rewrite Ep; apply differ_common; auto).
  assert (Lun : length (w_unchecked w) = length path) by (rewrite <- Hl, labels_length; auto).
  destruct (rminimize_loop_ok _ (length (w_unchecked w) - i) B h0 h root w frs t0 I)
    as (h1 & w1 & frs1 & t1 & E1 & I1 & F1 & U1); [rewrite Ht; auto | lia |].
  assert (La1 : labels (w_unchecked w1) = firstn i path).
  { rewrite U1, labels_skipn by lia. rewrite Hl, Lun.
    destruct (Nat.le_gt_cases i (length path)) as [X|X].
    - f_equal. lia.
    - rewrite !firstn_all2 by lia. auto. }
  assert (Fl1 : flabels frs1 = firstn i path).
  { rewrite <- La1. eapply links_labels. apply I1. }
  destruct (rpush_suffix_ok _ alloc A r B h0 h1 root w1 frs1 t1 I1)
    as (h2 & w2 & frs2 & t2 & E2 & I2 & F2 & La2 & N1).
  { intros c rest Er n G. destruct (edge_get (nedges n) c) as [q|] eqn:Ge; auto. exfalso.
    destruct (unf_inv _ _ _ (rv_top _ _ _ _ _ _ _ _ I1)) as (n1 & _ & G1 & _ & Us & _).
    rewrite G in G1. injection G1 as <-.
    pose proof (unfs_get _ _ _ c Us) as X. rewrite Ge in X. destruct X as (td & Gt & _).
    assert (Ut : useful t1). { apply useful_fill with (frs := frs1). rewrite F1, Ht. apply trie_useful. }
    destruct t1 as [f1 es1]. cbn [tedges] in *. inversion Ut as [? ? Fn _]; subst f es.
    rewrite Forall_forall in Fn. destruct (Fn _ (edge_get_In _ _ _ _ Gt)) as (x & Hx). cbn [snd] in Hx.
    apply (Ab c rest x Er). apply tin_trie. rewrite <- Ht, <- F1, <- Fl1, tin_fill. cbn. rewrite Gt. auto. }
  destruct (rset_final_ok _ B h0 h2 root w2 frs2 t2 I2) as (nt & Gt & E3 & I3). cbv zeta in E3, I3.
  assert (Tr : fill frs2 (T true (tedges t2)) = trie (stored ++ [firstn i path ++ r])).
  { rewrite F2, trie_app. rewrite <- Ht, <- F1, <- tadd_fill, Fl1. auto. }
  assert (Lab2 : labels (w_unchecked w2) = firstn i path ++ r) by (rewrite La2, La1; auto).
  exists (hset h2 (top root (w_unchecked w2)) (Node true (nedges nt))),
    (Builder (Dawg root (wadd (d_size (b_dawg b)) 1)) (p ++ r) (Some w2)), w2, frs2, (T true (tedges t2)).
  split; [|split; [|auto]].
  - intros fuel Hf.
    assert (Es : str_ltb (p ++ r) (b_prev b) = false).
    { destruct (str_ltb (p ++ r) (b_prev b)) eqn:Es; [apply str_ltb_lex in Es; tauto|auto]. }
    assert (p ++ r = [] \/ p ++ r <> []) as [Eterm|Eterm] by (destruct (p ++ r); [auto|right; discriminate]).
    + apply app_eq_nil in Eterm. destruct Eterm as [-> ->]. cbn [app] in *.
      assert (Hpe : b_prev b = []).
      { destruct (b_prev b); auto. exfalso. apply NL. constructor. }
      rewrite Hpe in Hs. cbn in Hs.
      assert (Hun : w_unchecked w = []) by (destruct (w_unchecked w); auto; cbn in *; lia).
      rewrite Hun in E1. cbn [length] in E1. replace (0 - i) with 0 in E1 by lia.
      specialize (E1 B (le_n B)). cbn in E1. injection E1 as <- <-. destruct (N1 eq_refl) as (-> & ->).
      rewrite Hun in *. cbn [top] in *. rewrite add_empty by auto.
      fold root. rewrite E3. cbn. rewrite Hw. auto.
    + rewrite add_nonempty by auto. rewrite Hw. cbn [deref rbind]. rewrite Ci.
      unfold minimize. rewrite E1 by auto. cbn [rbind]. fold root.
      unfold i at 1. rewrite skipn_length_app, E2. cbn [rbind]. rewrite E3. auto.
  - constructor; cbn [b_work b_dawg d_root b_prev d_size]; auto.
    + rewrite trie_app. apply height_tadd; auto. rewrite app_length, firstn_length.
      rewrite app_length in Lt. unfold i. lia.
    + rewrite !app_length, firstn_length. unfold i. lia.
    + rewrite Hz, app_length. cbn [length]. unfold wadd.
      rewrite N.add_mod_idemp_l by (unfold W; lia). f_equal. lia.
Qed.

Lemma settle_ok : forall B h1 h0 h b stored path w frs t0 k, open B h1 h0 h b stored path w frs t0 ->
  exists h' w' frs' t0', (forall fuel, B <= fuel -> minimize fuel h w k = Ok (h', w')) /\
    open B h1 h0 h' (Builder (b_dawg b) (b_prev b) (Some w')) stored (firstn k path) w' frs' t0'.
Proof.
  intros B hs h0 h b stored path w frs t0 k [Hw I Ht Hh Hl Hs Hz Hu M1 M2 M3].
  assert (Lun : length (w_unchecked w) = length path) by (rewrite <- Hl, labels_length; auto).
  destruct (rminimize_loop_ok _ (length (w_unchecked w) - k) B h0 h _ w frs t0 I)
    as (h1 & w1 & frs1 & t1 & E1 & I1 & F1 & U1); [rewrite Ht; auto | lia |].
  exists h1, w1, frs1, t1. split.
  - intros fuel Hf. unfold minimize. apply E1; auto.
  - constructor; cbn [b_work b_dawg b_prev]; auto.
    + congruence.
    + rewrite U1, labels_skipn by lia. rewrite Hl, Lun.
      destruct (Nat.le_gt_cases k (length path)) as [X|X].
      * f_equal. lia.
      * rewrite !firstn_all2 by lia. auto.
    + rewrite firstn_length. lia.
Qed.

Lemma nothing_left : forall B h1 h0 h b stored w frs t0, open B h1 h0 h b stored [] w frs t0 ->
  w_unchecked w = [] /\ frs = [] /\ t0 = trie stored.
Proof.
  intros B h1 h0 h b stored w frs t0 O.
  assert (Un : w_unchecked w = []).
  { pose proof (op_path _ _ _ _ _ _ _ _ _ _ O) as L. apply (f_equal (@length _)) in L.
    rewrite labels_length in L. destruct (w_unchecked w); auto; discriminate. }
  pose proof (rv_links _ _ _ _ _ _ _ _ (op_inv _ _ _ _ _ _ _ _ _ _ O)) as F. rewrite Un in F. inversion F; subst frs.
  pose proof (op_tree _ _ _ _ _ _ _ _ _ _ O) as Tr. cbn in Tr. auto.
Qed.

Lemma seal_ok : forall B h1 h0 h b stored path w frs t0, open B h1 h0 h b stored path w frs t0 ->
  exists h' w', (forall fuel, B <= fuel -> finish fuel h b = Ok (h', Builder (b_dawg b) (b_prev b) (Some w'))) /\
    open B h1 h0 h' (Builder (b_dawg b) (b_prev b) (Some w')) stored [] w' [] (trie stored).
Proof.
  intros B h1 h0 h b stored path w frs t0 O.
  destruct (settle_ok _ _ _ _ _ _ _ _ _ _ 0 O) as (h' & w' & frs' & t0' & E & O').
  exists h', w'. cbn [firstn] in O'. destruct (nothing_left _ _ _ _ _ _ _ _ _ O') as (_ & -> & ->).
  split; [|auto]. intros fuel Hf. unfold finish. rewrite (op_work _ _ _ _ _ _ _ _ _ _ O). cbn. rewrite E by auto. auto.
Qed.

Lemma close_ok : forall B h1 h0 h b stored path w frs t0, open B h1 h0 h b stored path w frs t0 ->
  let root := d_root (b_dawg b) in
  exists enough h' t, (forall fuel, enough <= fuel -> clean_up fuel h b = Ok (h', Builder (b_dawg b) (b_prev b) None)) /\
    unf h' root t /\ (path = [] -> t = trie stored) /\
    (forall p, reach h' root p -> reach h1 root p \/ hget h1 p = None) /\
    (forall p, reach h1 root p -> reach h' root p) /\
    (forall p, ~ reach h' root p -> hget h' p = hget h1 p).
Proof.
  intros B h1 h0 h b stored path w frs t0 O root. destruct O as [Hw I Ht Hh Hl Hs Hz Hu M1 M2 M3] eqn:EO. clear EO.
  fold root in I, Hu, M1, M2, M3.
  destruct (rclean_up_ok _ B h0 h b w frs t0 Hw I) as (en & h' & E & R1 & R2). fold root in R1, R2.
  destruct (rinv_unf _ _ _ _ _ _ _ _ _ I (or_introl eq_refl)) as (t & U).
  assert (Re : forall p, reach h' root p <-> reach h root p).
  { intros p. apply reach_frame. intros; apply R1; auto. }
  assert (St : forall p, reach h0 root p -> reach h root p) by (eapply reach_still; eauto).
  exists en, h', t. split; [auto|]. split; [|split; [|split; [|split]]].
  - eapply unf_frame with (P := reach h root); eauto using reach_closed, reach_refl. intros; apply R1; auto.
  - intros ->. destruct (nothing_left _ _ _ _ _ _ _ _ _ O) as (Un & -> & ->).
    eapply unf_det; [exact U|]. pose proof (rv_top _ _ _ _ _ _ _ _ I) as Ut. rewrite Un in Ut. exact Ut.
  - intros p R. apply Re in R. destruct (R1 p R) as (_ & [-> |[[X _]|X]]).
    + apply M1. apply reach_refl.
    + auto.
    + destruct (N.eq_dec p root) as [->|N]; [apply M1, reach_refl|].
      destruct Hu as (tu & Uu).
      destruct (all_nodes_all h0 (b_dawg b) tu Uu) as (nodes & _ & _ & In0). fold root in In0.
      destruct (in_dec N.eq_dec p nodes) as [J|J]; rewrite In0 in J; [auto|]. right. rewrite <- M3; auto.
  - intros p R. apply Re, St, M2, R.
  - intros p R. rewrite Re in R. rewrite R2 by auto. apply M3. auto.
Qed.

Lemma acts_ok : forall alloc, allocator alloc -> forall prev path stored l flags out,
  tale prev path stored l flags out -> forall B h1 h0 h b w frs t0,
  open B h1 h0 h b stored path w frs t0 -> b_prev b = prev -> short B (entered l) ->
  exists enough h0' h' b' path' w' frs' t0',
    (forall fuel, enough <= fuel -> acts fuel alloc h b l = Ok (flags, h', b')) /\
    open B h1 h0' h' b' out path' w' frs' t0' /\ d_root (b_dawg b') = d_root (b_dawg b) /\
    (~ In Reopen l -> h0' = h0).
Proof.
  intros alloc A prev path stored l flags out T. induction T; intros B h1 h0 h b w frs t0 O P Sh.
  - exists 0, h0, h, b, path, w, frs, t0. auto.
  - cbn [entered] in Sh. apply short_cons in Sh. destruct Sh as [_ Sh].
    destruct (IHT B h1 h0 h b w frs t0 O P Sh) as (en & h0' & h' & b' & path' & w' & frs' & t0' & E & O' & R' & N').
    exists en, h0', h', b', path', w', frs', t0'. split; [|split; [auto|split; [auto|intros N; apply N'; intros J; apply N; right; auto]]]. intros fuel Hf. cbn [acts].
    rewrite add_reject by (rewrite P; auto). cbn [rbind]. rewrite E by auto. auto.
  - cbn [entered] in Sh. apply short_cons in Sh. destruct Sh as [Lx Sh].
    destruct (enter_ok alloc B h1 h0 h b stored path w frs t0 p r r' A O Lx) as (h2 & b1 & w1 & frs1 & t1 & E1 & O1 & P1 & R1); auto; try congruence.
    destruct (IHT B h1 h0 h2 b1 w1 frs1 t1 O1 P1 Sh) as (en & h0' & h' & b' & path' & w' & frs' & t0' & E & O' & R' & N').
    exists (Nat.max B en), h0', h', b', path', w', frs', t0'. split; [|split; [auto|split; [congruence|intros N; apply N'; intros J; apply N; right; auto]]]. intros fuel Hf. cbn [acts].
    rewrite E1 by lia. cbn [rbind]. rewrite E by lia. auto.
  - cbn [entered] in Sh.
    destruct (seal_ok B h1 h0 h b stored path w frs t0 O) as (h2 & w1 & E1 & O1).
    destruct (IHT B h1 h0 h2 _ w1 _ _ O1 P Sh) as (en & h0' & h' & b' & path' & w' & frs' & t0' & E & O' & R' & N').
    exists (Nat.max B en), h0', h', b', path', w', frs', t0'. split; [|split; [auto|split; [auto|intros N; apply N'; intros J; apply N; right; auto]]]. intros fuel Hf. cbn [acts].
    rewrite E1 by lia. cbn [rbind]. apply E. lia.
  - cbn [entered] in Sh.
    destruct (settle_ok B h1 h0 h b stored path w frs t0 k O) as (h2 & w1 & frs1 & t1 & E1 & O1).
    destruct (IHT B h1 h0 h2 _ w1 _ _ O1 P Sh) as (en & h0' & h' & b' & path' & w' & frs' & t0' & E & O' & R' & N').
    exists (Nat.max B en), h0', h', b', path', w', frs', t0'. split; [|split; [auto|split; [auto|intros N; apply N'; intros J; apply N; right; auto]]]. intros fuel Hf. cbn [acts].
    rewrite (op_work _ _ _ _ _ _ _ _ _ _ O). cbn [deref rbind]. rewrite E1 by lia. cbn [rbind]. apply E. lia.
  - cbn [entered] in Sh.
    destruct (close_ok B h1 h0 h b stored [] w frs t0 O) as (en1 & h2 & t & E1 & U & Et & M1 & M2 & M3).
    specialize (Et eq_refl). subst t.
    assert (O1 : open B h1 h2 h2 (init (Builder (b_dawg b) (b_prev b) None)) stored [] (Work [] [] []) [] (trie stored)).
    { eapply opened with (root := d_root (b_dawg b)) (size := d_size (b_dawg b)); eauto; try apply O.
      cbn. destruct (b_dawg b); auto. }
    destruct (IHT B h1 h2 h2 _ _ _ _ O1 P Sh) as (en & h0' & h' & b' & path' & w' & frs' & t0' & E & O' & R' & N').
    exists (Nat.max en1 en), h0', h', b', path', w', frs', t0'. split; [|split; [auto|split; [auto|intros N; destruct N; left; auto]]]. intros fuel Hf. cbn [acts].
    rewrite E1 by lia. cbn [rbind]. apply E. lia.
Qed.

Lemma acts_app : forall l1 l2 fuel alloc h b,
  acts fuel alloc h b (l1 ++ l2) =
    (do (rs, h1, b1) <- acts fuel alloc h b l1;
     do (rs', h2, b2) <- acts fuel alloc h1 b1 l2;
     Ok (rs ++ rs', h2, b2)).
Proof.
  induction l1 as [|[t| |k|] l1 IH]; intros l2 fuel alloc h b; cbn.
  - destruct (acts fuel alloc h b l2) as [[[rs h2] b2]| |]; auto.
  - destruct (add fuel alloc h b t) as [[[r h1] b1]| |]; cbn; auto. rewrite IH.
    destruct (acts fuel alloc h1 b1 l1) as [[[rs h2] b2]| |]; cbn; auto.
    destruct (acts fuel alloc h2 b2 l2) as [[[rs' h3] b3]| |]; cbn; auto.
  - destruct (finish fuel h b) as [[h1 b1]| |]; cbn; auto.
  - destruct (b_work b) as [w|]; cbn; auto. destruct (minimize fuel h w k) as [[h1 w1]| |]; cbn; auto.
  - destruct (clean_up fuel h b) as [[h1 b1]| |]; cbn; auto.
Qed.

(** Nodes made since the last call of init, and the root, are all different. *)
Lemma open_distinct : forall B h1 h0 h b stored w frs t0, open B h1 h0 h b stored [] w frs t0 ->
  let root := d_root (b_dawg b) in forall p q t, reach h root p -> reach h root q ->
  ~ inner h0 root p -> ~ inner h0 root q -> unf h p t -> unf h q t -> p = q.
Proof.
  intros B h1 h0 h b stored w frs t0 O root p q t Rp Rq Np Nq Up Uq.
  pose proof (op_inv _ _ _ _ _ _ _ _ _ _ O) as I. fold root in I.
  destruct (nothing_left _ _ _ _ _ _ _ _ _ O) as (Un & -> & ->).
  pose proof (rv_top _ _ _ _ _ _ _ _ I) as Ut. rewrite Un in Ut. cbn [top] in Ut.
  assert (Cl : forall x, reach h root x -> ~ inner h0 root x -> x = root \/ In x (mptrs (w_minimized w))).
  { intros x R N. destruct (N.eq_dec x root) as [|Nr]; auto. right.
    destruct (rinv_reach _ _ _ _ _ _ _ _ x I R) as [X|[X|X]]; tauto. }
  assert (Lo : forall x, reach h root x -> x <> root -> unf h x (trie stored) -> False).
  { intros x R N U. destruct (reach_proper _ _ _ _ Ut R N) as (t' & U' & L).
    rewrite (unf_det _ _ _ _ U' U) in L. lia. }
  destruct (N.eq_dec p root) as [->|Pr], (N.eq_dec q root) as [->|Qr]; auto.
  - destruct (Lo q Rq Qr). rewrite <- (unf_det _ _ _ _ Up Ut). auto.
  - destruct (Lo p Rp Pr). rewrite <- (unf_det _ _ _ _ Uq Ut). auto.
  - destruct (Cl p Rp Np) as [|Mp]; [tauto|]. destruct (Cl q Rq Nq) as [|Mq]; [tauto|].
    unfold mptrs in Mp, Mq. apply in_map_iff in Mp, Mq. destruct Mp as (e1 & <- & M1), Mq as (e2 & <- & M2).
    eapply (ki_inj _ _ _ _ (rv_min _ _ _ _ _ _ _ _ I)); eauto.
Qed.

Lemma continued_ok : forall alloc h b l flags stored out, allocator alloc ->
  unf h (d_root (b_dawg b)) (trie stored) -> d_size (b_dawg b) = (N.of_nat (length stored) mod W)%N ->
  tale (b_prev b) [] stored l flags out ->
  exists h' b', runs_to (fun fuel => continued fuel alloc h b l) (flags, h', b') /\
    unf h' (d_root (b_dawg b')) (trie out) /\
    d_size (b_dawg b') = (N.of_nat (length out) mod W)%N /\
    d_root (b_dawg b') = d_root (b_dawg b) /\
    (~ In Reopen l -> forall p q t, let root := d_root (b_dawg b) in reach h' root p -> reach h' root q ->
       ~ inner h root p -> ~ inner h root q -> unf h' p t -> unf h' q t -> p = q) /\
    exists h2, runs_to (fun fuel => destroy fuel h' b') h2 /\
      (forall p, reach h (d_root (b_dawg b)) p -> hget h2 p = None) /\
      (forall p, ~ reach h (d_root (b_dawg b)) p -> hget h2 p = hget h p).
Proof.
  intros alloc h b l flags stored out A U Hz T.
  destruct (short_ex (entered l)) as (B0 & _ & Sh0).
  set (B := Nat.max B0 (height (trie stored))).
  assert (Sh : short B (entered l)) by (intros t J; specialize (Sh0 t J); lia).
  assert (O : open B h h h (init b) stored [] (Work [] [] []) [] (trie stored)).
  { eapply opened with (root := d_root (b_dawg b)) (size := d_size (b_dawg b)); eauto.
    - destruct (b_dawg b); auto.
    - lia. }
  destruct (acts_ok alloc A _ _ _ _ _ _ T B h h h (init b) _ _ _ O eq_refl Sh)
    as (en & h0 & h2 & b2 & path2 & w2 & frs2 & t2 & E2 & O2 & R2 & N2). cbn [init b_dawg] in R2.
  destruct (seal_ok _ _ _ _ _ _ _ _ _ _ O2) as (h3 & w3 & E3 & O3).
  destruct (close_ok _ _ _ _ _ _ _ _ _ _ O3) as (en4 & h4 & t4 & E4 & U4 & Et4 & M1 & M2 & M3).
  cbn [b_dawg b_prev] in *. specialize (Et4 eq_refl). subst t4.
  destruct (destroy_dawg_all h4 (b_dawg b2) _ U4) as (h5 & E5 & D1 & D2).
  exists h3, (Builder (b_dawg b2) (b_prev b2) (Some w3)). cbn [b_dawg].
  split; [|split; [|split; [apply O2|split; [auto|split]]]].
  - exists (Nat.max B en). intros fuel Hf. unfold continued. rewrite acts_app, E2 by lia. cbn. rewrite E3 by lia. cbn.
    rewrite app_nil_r. auto.
  - pose proof (rv_top _ _ _ _ _ _ _ _ (op_inv _ _ _ _ _ _ _ _ _ _ O3)) as Ut.
    destruct (nothing_left _ _ _ _ _ _ _ _ _ O3) as (Un & _). rewrite Un in Ut. exact Ut.
  - intros N p q t. specialize (N2 N). subst h0. pose proof (open_distinct _ _ _ _ _ _ _ _ _ O3 p q t) as X. cbn [b_dawg] in X.
    rewrite R2 in X. exact X.
  - exists h5. rewrite R2 in *. split; [|split].
    + exists (Nat.max en4 (tsize (trie out) + 2)). intros fuel Hf. unfold destroy. rewrite E4 by lia. cbn [rbind b_dawg]. apply E5. lia.
    + intros p R. apply D1. apply M2; auto.
    + intros p R. destruct (all_nodes_all h4 (b_dawg b2) _ ltac:(rewrite R2; exact U4)) as (nodes & _ & _ & In0). rewrite R2 in In0.
      destruct (in_dec N.eq_dec p nodes) as [J|J]; rewrite In0 in J.
      * rewrite D1 by auto. destruct (M1 p J); [tauto|auto].
      * rewrite D2 by auto. apply M3. auto.
Qed.

Lemma played_ok : forall alloc h0 l flags out, allocator alloc -> tale [] [] [] l flags out ->
  exists h b, runs_to (fun fuel => played fuel alloc h0 l) (flags, h, b) /\
    unf h (d_root (b_dawg b)) (trie out) /\
    d_size (b_dawg b) = (N.of_nat (length out) mod W)%N /\
    (~ In Reopen l -> forall p q t, let root := d_root (b_dawg b) in reach h root p -> reach h root q ->
       unf h p t -> unf h q t -> p = q) /\
    exists h2, runs_to (fun fuel => destroy fuel h b) h2 /\ same_heap h2 h0.
Proof.
  intros alloc h0 l flags out A T.
  destruct (new_init alloc h0) as (h1 & b1 & E1). pose proof E1 as E.
  unfold new_sorted_dawg, new_node in E. injection E as <- <-.
  destruct (A h0) as [NN Fr]. set (q := alloc h0) in *.
  set (b := Builder (Dawg q 0) [] None) in *.
  assert (U : unf (hset h0 q (Node false [])) q leaf).
  { eapply unf_intro; [auto|apply hget_hset_same|]. repeat split; cbn; constructor. }
  destruct (continued_ok alloc (hset h0 q (Node false [])) b l flags [] out A) as (h & b' & R & U' & S & Rt & Di & h2 & D & D1 & D2); auto.
  assert (Al : forall p, reach (hset h0 q (Node false [])) q p -> p = q).
  { intros p Rp. eapply (closed_reach _ (fun x => x = q)); [|reflexivity|exact Rp].
    intros x n c y -> G J. rewrite hget_hset_same in G. injection G as <-. destruct J. }
  exists h, b'. split; [|split; [auto|split; [auto|split]]].
  - destruct R as (en & R). exists en. intros fuel Hf. unfold played. rewrite E1. apply R; auto.
  - intros N p p' t. rewrite Rt. cbn [b b_dawg d_root] in Di |- *. intros. eapply (Di N); eauto; intros [X Y]; auto.
  - exists h2. split; auto. intros p. cbn [b b_dawg d_root] in D1, D2. destruct (N.eq_dec p q) as [->|N].
    + rewrite D1 by apply reach_refl. auto.
    + rewrite D2.
      * apply hget_hset_other. auto.
      * intros Rp. apply N. auto.
Qed.

(** ** A new beginning *)
Lemma common_split : forall t prev, exists p r r', t = p ++ r /\ prev = p ++ r' /\ differ r r'.
Proof.
  induction t as [|c t IH]; intros prev.
  - exists [], [], prev. cbn. auto.
  - destruct prev as [|d prev].
    + exists [], (c :: t), []. cbn. auto.
    + destruct (ascii_dec c d) as [->|N].
      * destruct (IH prev) as (p & r & r' & -> & -> & D). exists (d :: p), r, r'. auto.
      * exists [], (c :: t), (d :: prev). cbn. auto.
Qed.

Lemma lex_app_head : forall p u v, lex_lt (p ++ u) (p ++ v) <-> lex_lt u v.
Proof.
  induction p as [|c p IH]; intros u v; cbn; [tauto|]. rewrite <- (IH u v). split; intros H.
  - inversion H; subst; auto. lia.
  - apply lex_tail; auto.
Qed.

(** No string of a sorted list goes on beyond the end of the last. *)
Lemma room_sorted : forall stored p r r', (forall x, In x stored -> lex_le x (p ++ r')) ->
  differ r r' -> ~ lex_lt (p ++ r) (p ++ r') -> room stored p r.
Proof.
  intros stored p r r' So D NL c r1 x -> I. apply So in I. rewrite lex_app_head in NL.
  assert (Le : lex_le (c :: x) r').
  { destruct I as [E|I]; [left; eapply app_inv_head; eauto|right; apply lex_app_head in I; auto]. }
  destruct r' as [|e r']; [destruct Le as [Le|Le]; [discriminate|inversion Le]|].
  cbn in D. assert (uchar c <> uchar e) by (intros X; apply D, uchar_inj; auto).
  assert (~ (uchar c < uchar e)%N) by (intros X; apply NL, lex_head; auto).
  destruct Le as [E|L]; [injection E as -> _; lia|inversion L; subst; lia].
Qed.

Lemma lex_le_trans_not : forall a b c, lex_le a b -> ~ lex_lt c b -> lex_le a c.
Proof.
  intros a b c H N. apply lex_le_not_lt in N. destruct H as [->|H]; auto. destruct N as [->|N]; [right; auto|].
  right. eapply lex_trans; eauto.
Qed.

Lemma anew_tale : forall prev left l flags kept, anew prev left l flags kept ->
  forall path stored, path = firstn left prev -> (forall x, In x stored -> lex_le x prev) ->
  tale prev path stored l flags (stored ++ kept).
Proof.
  intros prev left l flags kept N. induction N; intros path stored Ep So.
  - rewrite app_nil_r. constructor.
  - constructor; auto.
  - assert (Fp : firstn (length p) path = p).
    { rewrite Ep, firstn_firstn, Nat.min_l by auto. subst prev.
      rewrite firstn_app, Nat.sub_diag, firstn_all, app_nil_r. auto. }
    replace (stored ++ (p ++ r) :: kept) with ((stored ++ [firstn (length p) path ++ r]) ++ kept)
      by (rewrite Fp, <- app_assoc; auto).
    subst prev. eapply tale_keep; eauto.
    + rewrite Fp. eapply room_sorted; eauto.
    + rewrite Fp. apply IHN; auto; [rewrite firstn_all; auto|].
      intros x I. apply in_app_iff in I. destruct I as [I|[<-|[]]].
      * eapply lex_le_trans_not; eauto.
      * left; auto.
  - constructor. auto.
  - constructor. apply IHN; auto. rewrite Ep, firstn_firstn, Nat.min_comm. auto.
  - cbn in Ep. subst path. constructor. auto.
Qed.

Lemma anew_greedy : forall prev left l flags kept, anew prev left l flags kept -> greedy prev (entered l) flags kept.
Proof. intros prev left l flags kept N. induction N; cbn [entered]; try constructor; auto. Qed.

(** One round, then more. *)
Lemma tale_app : forall ts prev path stored flags kept l flags' out, path = prev ->
  (forall x, In x stored -> lex_le x prev) ->
  greedy prev ts flags kept ->
  tale (last kept prev) [] (stored ++ kept) l flags' out ->
  tale prev path stored (map Enter ts ++ Seal :: l) (flags ++ flags') out.
Proof.
  intros ts prev path stored flags kept l flags' out Ep So G. revert path stored Ep So.
  induction G; intros path stored Ep So T; cbn [map app].
  - rewrite app_nil_r in T. constructor. auto.
  - destruct (common_split t prev) as (p & r & r' & Et & Epr & D).
    assert (Fp : firstn (length p) path = p).
    { rewrite Ep, Epr, firstn_app, Nat.sub_diag, firstn_all, app_nil_r. auto. }
    rewrite Et in *. rewrite Epr in *.
    eapply tale_keep; eauto.
    + rewrite Fp. eapply room_sorted; eauto.
    + rewrite Fp. apply IHG; auto.
      * intros x I. apply in_app_iff in I. destruct I as [I|[<-|[]]]; [eapply lex_le_trans_not; eauto|left; auto].
      * rewrite <- app_assoc. cbn [app]. rewrite last_cons in T. auto.
  - constructor; auto.
Qed.

Lemma sorted_head_last : forall k a, sorted_by lex_le (a :: k) -> lex_le a (last k a).
Proof.
  induction k as [|z k IH]; intros a H; [left; auto|]. rewrite last_cons.
  apply ascending_cons in H. destruct H as [N H]. apply IH in H. destruct H as [<-|H].
  - apply lex_le_not_lt. auto.
  - apply lex_le_not_lt in N. destruct N as [->|N]; right; auto. eapply lex_trans; eauto.
Qed.

Lemma sorted_last : forall k a x, sorted_by lex_le (a :: k) -> In x k -> lex_le x (last k a).
Proof.
  induction k as [|y k IH]; intros a x H J; [destruct J|]. rewrite last_cons.
  apply ascending_cons in H. destruct H as [_ H].
  destruct J as [->|J]; [apply sorted_head_last; auto|apply IH; auto].
Qed.

(** Terms none of which begins like a stored one. *)
Lemma room_app : forall s1 s2 p r, room s1 p r -> room s2 p r -> room (s1 ++ s2) p r.
Proof. intros s1 s2 p r R1 R2 c r' x E I. apply in_app_iff in I. destruct I as [I|I]; [eapply R1|eapply R2]; eauto. Qed.

Lemma tale_rest : forall ts terms done prev, sorted_by lex_le (prev :: ts) ->
  (forall c x y, In (c :: x) terms -> ~ In (c :: y) ts) -> (forall x, In x done -> lex_le x prev) ->
  tale prev prev (terms ++ done) (map Enter ts) (map (fun _ => true) ts) (terms ++ done ++ ts).
Proof.
  induction ts as [|t ts IH]; intros terms done prev So Ap Le; cbn [map].
  - rewrite app_nil_r. constructor.
  - apply ascending_cons in So. destruct So as [NL So].
    destruct (common_split t prev) as (p & r & r' & -> & -> & D).
    assert (Fp : firstn (length p) (p ++ r') = p).
    { rewrite firstn_app, Nat.sub_diag, firstn_all, app_nil_r. auto. }
    eapply tale_keep; eauto; rewrite Fp.
    + apply room_app; [|eapply room_sorted; eauto].
      intros c r1 x -> I. destruct p as [|d p]; eapply Ap; cbn; eauto.
    + rewrite <- app_assoc.
      replace (terms ++ done ++ (p ++ r) :: ts) with (terms ++ (done ++ [p ++ r]) ++ ts) by (rewrite <- app_assoc; auto).
      apply IH; auto.
      * intros c x y I J. eapply Ap; eauto. right; eauto.
      * intros x I. apply in_app_iff in I. destruct I as [I|[<-|[]]]; [eapply lex_le_trans_not; eauto|left; auto].
Qed.

Lemma tale_more : forall ts terms prev, (prev = [] \/ In prev terms) -> sorted_by lex_le (prev :: ts) ->
  (forall c x y, In (c :: x) terms -> ~ In (c :: y) ts) ->
  tale prev [] terms (map Enter ts) (map (fun _ => true) ts) (terms ++ ts).
Proof.
  intros [|t ts] terms prev Pr So Ap; cbn [map].
  - rewrite app_nil_r. constructor.
  - apply ascending_cons in So. destruct So as [NL So].
    assert (D : differ t prev).
    { destruct t as [|c t], prev as [|d prev]; cbn; auto. destruct Pr as [Pr|Pr]; [discriminate|].
      intros ->. eapply Ap; [exact Pr|left; eauto]. }
    apply (tale_keep prev [] terms [] t prev); cbn [app length firstn]; auto.
    + intros c r' x -> I. eapply Ap; [exact I|left; eauto].
    + replace (terms ++ t :: ts) with (terms ++ [t] ++ ts) by auto. apply tale_rest; auto.
      * intros c x y I J. eapply Ap; eauto. right; eauto.
      * intros x [<-|[]]. left; auto.
Qed.

(** * ReopenProofs: building on top of nodes that are already there.

    The invariant of BuildProofs, for a root that may have edges to nodes of an
    earlier dictionary. *)
From Coq Require Import Sorting.Sorted.
From Verif Require Import Base Spec ModelHash ModelDawg SpecDawg TreeProofs HeapProofs
  BuildProofs BuildProofs2 IterProofs DawgProofs.

Section Reopen.

(** The nodes of the earlier dictionary but its root. *)
Variable old : ptr -> Prop.

Definition good (m : list entry) (p : ptr) : Prop := old p \/ In p (mptrs m).

Record kinv (B : nat) (h : heap) (m : list entry) : Prop := {
  ki_ent : forall e, In e m ->
    e_ptr e <> null /\ hget h (e_ptr e) = Some (e_key e) /\
    exists t, nunf h (e_key e) t /\ e_hash e = thash t /\ height t <= B;
  ki_old : forall p, old p -> exists t, unf h p t;
  ki_closed : closed h (good m);
  ki_inj : forall e1 e2 t, In e1 m -> In e2 m ->
    unf h (e_ptr e1) t -> unf h (e_ptr e2) t -> e_ptr e1 = e_ptr e2;
}.

Inductive links (h : heap) (root : ptr) : list trans -> list frame -> Prop :=
| links_nil : links h root [] []
| links_cons : forall c t un frs n es,
    hget h (top root un) = Some n ->
    unfs h (nedges n) es ->
    edge_get (nedges n) c = None ->
    links h root un frs ->
    links h root (Trans c (top root un) t :: un) ((nfin n, es, c) :: frs).

Lemma links_labels : forall h root un frs, links h root un frs -> flabels frs = labels un.
Proof.
  unfold flabels, labels. intros h root un frs F. induction F; cbn; auto.
  rewrite IHF. auto.
Qed.

Record rinv (B : nat) (h0 h : heap) (root : ptr) (w : work) (frs : list frame) (t0 : tree) : Prop := {
  rv_links : links h root (w_unchecked w) frs;
  rv_top : unf h (top root (w_unchecked w)) t0;
  rv_min : kinv B h (w_minimized w);
  rv_nodup : NoDup (root :: targets (w_unchecked w));
  rv_disj : forall p, In p (root :: targets (w_unchecked w)) -> ~ good (w_minimized w) p;
  rv_edges : forall p, In p (root :: targets (w_unchecked w)) ->
    exists n, hget h p = Some n /\ esorted (nedges n) /\
      forall c q, In (c, q) (nedges n) -> good (w_minimized w) q;
  rv_float : NoDup (root :: w_floating w);
  rv_mfloat : incl (mptrs (w_minimized w)) (w_floating w);
  rv_tfloat : incl (targets (w_unchecked w)) (w_floating w);
  rv_base : forall p, ~ In p (root :: w_floating w) -> hget h p = hget h0 p;
  rv_own : forall p, In p (root :: w_floating w) -> p <> null /\ allocated h p;
  rv_new : forall p, In p (w_floating w) -> hget h0 p = None;
  rv_kept : forall n0 c q, hget h0 root = Some n0 -> In (c, q) (nedges n0) ->
    exists n, hget h root = Some n /\ In (c, q) (nedges n);
}.

Lemma kinv_frame : forall B h h' m, kinv B h m ->
  (forall p, good m p -> hget h' p = hget h p) -> kinv B h' m.
Proof.
  intros B h h' m M E.
  assert (C : closed h' (good m)).
  { intros p n c q I G J. rewrite E in G by auto. eapply ki_closed; eauto. }
  constructor; auto.
  - intros e I. destruct (ki_ent _ _ _ M e I) as (NN & G & t & (So & U & F) & Hh & Ht).
    assert (Ie : good m (e_ptr e)) by (right; apply in_map; auto).
    split; auto. rewrite E by auto. split; auto.
    exists t. split; auto. repeat split; auto.
    eapply unfs_frame with (h := h) (P := good m); auto.
    + apply (ki_closed _ _ _ M).
    + intros c q J. apply (ki_closed _ _ _ M _ _ _ _ Ie G J).
  - intros p O. destruct (ki_old _ _ _ M p O) as (t & U). exists t.
    eapply unf_frame with (h := h) (P := good m); eauto using ki_closed. left; auto.
  - intros e1 e2 t I1 I2 U1 U2.
    eapply (ki_inj _ _ _ M e1 e2 t); auto.
    + eapply unf_frame with (h := h') (P := good m); eauto; [intros; symmetry; auto | right; apply in_map; auto].
    + eapply unf_frame with (h := h') (P := good m); eauto; [intros; symmetry; auto | right; apply in_map; auto].
Qed.

Lemma kinv_unfs : forall B h m es ts h', kinv B h m ->
  (forall p, good m p -> hget h' p = hget h p) ->
  (forall c q, In (c, q) es -> good m q) -> unfs h es ts -> unfs h' es ts.
Proof. intros. eapply unfs_frame with (P := good m); eauto using ki_closed. Qed.

Lemma kinv_unfs_ex : forall B h m es, kinv B h m ->
  (forall c q, In (c, q) es -> good m q) -> exists ts, unfs h es ts.
Proof.
  intros B h m es M. induction es as [|[c q] es IH]; intros H.
  - exists []. constructor.
  - destruct IH as (ts & U); [intros; eapply H; right; eauto|].
    assert (good m q) as I by (eapply H; left; eauto).
    assert (exists t, unf h q t) as (t & Ut).
    { destruct I as [I|I]; [eapply ki_old; eauto|].
      apply in_map_iff in I. destruct I as (e & <- & I).
      destruct (ki_ent _ _ _ M e I) as (NN & G & t & N & _). exists t. eapply unf_intro; eauto. }
    exists ((c, t) :: ts). constructor; auto.
Qed.

Lemma kinv_edges : forall B h m p n, kinv B h m -> good m p -> hget h p = Some n ->
  forall c q, In (c, q) (nedges n) -> good m q.
Proof. intros. eapply ki_closed; eauto. Qed.

Lemma links_sources : forall h root un frs, links h root un frs ->
  forall tr, In tr un -> In (t_source tr) (root :: targets (tl un)).
Proof.
  intros h root un frs F. induction F; intros tr I; [destruct I|].
  cbn [tl]. destruct I as [<-|I].
  - cbn. destruct un; cbn; auto.
  - apply IHF in I. destruct un as [|x un]; cbn in *; auto. destruct I; auto.
Qed.

Lemma links_frame : forall B h h' root un frs m, links h root un frs -> kinv B h m ->
  (forall p, good m p -> hget h' p = hget h p) ->
  (forall tr, In tr un -> hget h' (t_source tr) = hget h (t_source tr)) ->
  (forall tr n, In tr un -> hget h (t_source tr) = Some n -> forall c q, In (c, q) (nedges n) -> good m q) ->
  links h' root un frs.
Proof.
  intros B h h' root un frs m F M E. induction F; intros Es Hm; [constructor|].
  constructor; auto.
  - rewrite <- H. apply (Es (Trans c (top root un) t)). left; auto.
  - eapply kinv_unfs; eauto. eapply (Hm (Trans c (top root un) t)); eauto. left; auto.
  - apply IHF.
    + intros. apply Es. right; auto.
    + intros tr m' I. apply Hm. right; auto.
Qed.

Lemma links_frame_top : forall B h0 h root w frs t0 n',
  rinv B h0 h root w frs t0 ->
  links (hset h (top root (w_unchecked w)) n') root (w_unchecked w) frs.
Proof.
  intros B h0 h root w frs t0 n' I.
  assert (Hs : forall tr, In tr (w_unchecked w) -> In (t_source tr) (root :: targets (tl (w_unchecked w)))).
  { eapply links_sources. apply I. }
  assert (Sub : forall p, In p (root :: targets (tl (w_unchecked w))) -> In p (root :: targets (w_unchecked w))).
  { intros p J. destruct (w_unchecked w); cbn in *; auto. tauto. }
  eapply links_frame; eauto using rv_links, rv_min.
  - intros p J. apply hget_hset_other. intros ->. eapply (rv_disj _ _ _ _ _ _ _ I); eauto. apply top_In.
  - intros tr J. apply hget_hset_other. intros E.
    specialize (Hs _ J). rewrite E in Hs.
    pose proof (rv_nodup _ _ _ _ _ _ _ I) as ND.
    destruct (w_unchecked w) as [|x un]; [destruct J|]. cbn in *.
    inversion ND as [|? ? N1 N2]; subst. inversion N2; subst.
    destruct Hs as [Hs|Hs]; [apply N1; left; auto | auto].
  - intros tr n J G. specialize (Hs _ J). apply Sub in Hs.
    destruct (rv_edges _ _ _ _ _ _ _ I _ Hs) as (n2 & G2 & _ & Ed).
    assert (n2 = n) by congruence. subst; auto.
Qed.

(** One iteration of minimize. *)
Lemma rminimize_step : forall B h0 h root c s t un m fl frs t0,
  rinv B h0 h root (Work (Trans c s t :: un) m fl) frs t0 -> height t0 <= B ->
  exists h' m' frs' t0',
    (forall fuel k, B <= fuel ->
      minimize_loop (S k) fuel h (Work (Trans c s t :: un) m fl) = minimize_loop k fuel h' (Work un m' fl)) /\
    rinv B h0 h' root (Work un m' fl) frs' t0' /\
    fill frs' t0' = fill frs t0.
Proof.
  intros B h0 h root c s t un m fl frs t0 I Ht.
  pose proof (rv_links _ _ _ _ _ _ _ I) as F. cbn [w_unchecked] in F.
  inversion F as [|c' t' un' frs' n es Gs Us Gc F']; subst. clear F.
  pose proof (rv_top _ _ _ _ _ _ _ I) as Ut. cbn [w_unchecked top t_target] in Ut.
  destruct (unf_inv _ _ _ Ut) as (nt & NNt & Gt & Nt).
  pose proof (rv_min _ _ _ _ _ _ _ I) as M. cbn [w_minimized] in M.
  set (s := top root un) in *.
  assert (Js : In s (root :: targets (Trans c s t :: un))).
  { pose proof (top_In root un) as X. cbn in *. fold s in X. tauto. }
  pose proof (rv_disj _ _ _ _ _ _ _ I s Js) as Ds. cbn [w_minimized] in Ds.
  destruct (rv_edges _ _ _ _ _ _ _ I s Js) as (n2 & Gs2 & Ss & Es). cbn [w_minimized] in Es.
  rewrite Gs in Gs2. injection Gs2 as <-.
  assert (NNs : s <> null).
  { eapply (rv_own _ _ _ _ _ _ _ I). cbn [w_floating]. pose proof (rv_tfloat _ _ _ _ _ _ _ I) as X. cbn in X.
    pose proof (top_In root un) as Y. fold s in Y. destruct Y as [Y|Y]; [left; auto|right; apply X; right; auto]. }
  assert (Nts : t <> s).
  { pose proof (rv_nodup _ _ _ _ _ _ _ I) as ND. cbn in ND. inversion ND as [|? ? N1 N2]; subst.
    inversion N2; subst. intros E. rewrite E in *. pose proof (top_In root un) as Y. fold s in Y.
    destruct Y as [Y|Y]; [apply N1; left; congruence | auto]. }
  assert (Jt : In t (root :: targets (Trans c s t :: un))) by (cbn; auto).
  pose proof (rv_disj _ _ _ _ _ _ _ I t Jt) as Dt. cbn [w_minimized] in Dt.
  destruct (rv_edges _ _ _ _ _ _ _ I t Jt) as (nt2 & Gt2 & St & Et). cbn [w_minimized] in Et.
  rewrite Gt in Gt2. injection Gt2 as <-.
  assert (Ment : forall e, In e m -> exists te, nunf h (e_key e) te /\ e_hash e = thash te /\ e_ptr e <> null).
  { intros e J. destruct (ki_ent _ _ _ M e J) as (? & _ & te & ? & ? & _). eauto. }
  destruct (map_find_ok B h nt t0 m Nt Ht Ment) as (p & Ep & D).
  assert (Efind : forall fuel, B <= fuel -> minimized_node fuel h m t = Ok p).
  { intros fuel Hf. unfold minimized_node. rewrite (read_ok _ _ _ NNt Gt). cbn.
    rewrite (node_hash_ok fuel h nt t0 Nt) by lia. cbn. auto. }
  (* common part: linking s to a node q that unfolds to t0 *)
  assert (Link : forall q m', let h' := hset h s (Node (nfin n) (edge_set (nedges n) c q)) in
    kinv B h' m' -> unf h' q t0 -> good m' q -> (forall r, good m r -> good m' r) ->
    (forall r, good m' r -> good m r \/ r = t) ->
    (forall r, In r (mptrs m') -> In r (mptrs m) \/ r = t) ->
    rinv B h0 h' root (Work un m' fl) frs' (T (nfin n) (edge_set es c t0))).
  { intros q m' h' M' Uq Jq Sub Sup Sup2.
    assert (E : forall r, r <> s -> hget h' r = hget h r) by (intros; apply hget_hset_other; auto).
    assert (Em : forall r, good m r -> hget h' r = hget h r).
    { intros r J. apply E. intros ->. auto. }
    { constructor; cbn [w_unchecked w_minimized w_floating].
      + (* links *)
        eapply links_frame; eauto.
        * intros tr J. apply E.
          pose proof (links_sources _ _ _ _ F' _ J) as X.
          pose proof (rv_nodup _ _ _ _ _ _ _ I) as ND. cbn in ND.
          intros Y. rewrite Y in X. unfold s in X, Y. destruct un as [|x un2]; [destruct J|].
          cbn in X, ND. inversion ND as [|? ? N1 N2]; subst. inversion N2 as [|? ? N3 N4]; subst.
          inversion N4; subst. cbn in N1. destruct X as [X|X]; [apply N1; auto | auto].
        * intros tr n3 J G3. pose proof (links_sources _ _ _ _ F' _ J) as X.
          assert (In (t_source tr) (root :: targets (Trans c s t :: un))) as Y.
          { destruct un; [destruct J|]. cbn in *. tauto. }
          destruct (rv_edges _ _ _ _ _ _ _ I _ Y) as (n4 & G4 & _ & Ed).
          cbn in Ed. assert (n4 = n3) by congruence. subst; auto.
      + (* top *)
        change (top root un) with s.
        eapply unf_intro; [auto | apply hget_hset_same |].
        split; [|split]; cbn; auto.
        * apply edge_set_sorted; auto.
        * apply unfs_set; auto. eapply kinv_unfs with (h := h) (m := m); eauto.
      + auto.
      + pose proof (rv_nodup _ _ _ _ _ _ _ I) as ND. cbn in ND. inversion ND as [|? ? N1 N2]; subst.
        inversion N2; subst. constructor; auto. intros X. apply N1. right; auto.
      + intros r J K.
        assert (J' : In r (root :: targets (Trans c s t :: un))) by (cbn in *; tauto).
        apply Sup in K. destruct K as [K| ->].
        * eapply (rv_disj _ _ _ _ _ _ _ I); eauto.
        * pose proof (rv_nodup _ _ _ _ _ _ _ I) as ND. cbn in ND. inversion ND as [|? ? N1 N2]; subst.
          inversion N2; subst. destruct J as [J|J]; [apply N1; left; auto | auto].
      + intros r J.
        assert (J' : In r (root :: targets (Trans c s t :: un))) by (cbn in *; tauto).
        destruct (N.eq_dec r s) as [->|Nr].
        * exists (Node (nfin n) (edge_set (nedges n) c q)). split; [apply hget_hset_same|].
          cbn. split; [apply edge_set_sorted; auto|].
          intros d r K. apply edge_set_In in K. destruct K as [[-> ->]|K]; auto. eauto.
        * destruct (rv_edges _ _ _ _ _ _ _ I r J') as (n3 & G3 & S3 & E3). cbn in E3.
          exists n3. rewrite E by auto. split; auto. split; auto. eauto.
      + apply I.
      + intros r K. apply Sup2 in K. destruct K as [K| ->].
        * apply (rv_mfloat _ _ _ _ _ _ _ I); auto.
        * apply (rv_tfloat _ _ _ _ _ _ _ I). cbn. auto.
      + intros r K. apply (rv_tfloat _ _ _ _ _ _ _ I). cbn. auto.
      + intros r K. cbn in K. rewrite E.
        * apply (rv_base _ _ _ _ _ _ _ I). auto.
        * intros ->. apply K. pose proof (top_In root un) as Y. fold s in Y.
          destruct Y as [Y|Y]; auto. right. apply (rv_tfloat _ _ _ _ _ _ _ I). cbn. auto.
      + intros r K. destruct (rv_own _ _ _ _ _ _ _ I r K) as (? & Al). split; auto.
        unfold allocated in *. unfold h'. rewrite hget_hset. destruct (N.eqb r s); [discriminate|auto].
      + apply (rv_new _ _ _ _ _ _ _ I).
      + intros n0 d r G0 J. destruct (rv_kept _ _ _ _ _ _ _ I n0 d r G0 J) as (n3 & G3 & J3).
        destruct (N.eq_dec root s) as [Er|Nr].
        * rewrite Er in *. rewrite Gs in G3. injection G3 as <-. eexists. split; [apply hget_hset_same|].
          cbn. apply edge_get_In. rewrite edge_get_set. pose proof (edge_In_get _ _ _ _ Ss J3) as Gd.
          destruct (ceqb_spec d c) as [[-> Ec]|[Nd Ec]]; [congruence|]. rewrite Ec. auto.
        * exists n3. rewrite E by auto. auto. } }
  assert (Minh' : forall q, kinv B (hset h s (Node (nfin n) (edge_set (nedges n) c q))) m).
  { intros q. eapply kinv_frame; eauto. intros r J. apply hget_hset_other. intros ->. auto. }
  destruct D as [[-> Dn]|(e & Je & -> & Ne)].
  - (* a new class *)
    set (h' := hset h s (Node (nfin n) (edge_set (nedges n) c t))) in *.
    set (m' := m ++ [Entry (thash t0) nt t]) in *.
    assert (Em : forall r, good m r -> hget h' r = hget h r).
    { intros r J. apply hget_hset_other. intros ->. auto. }
    assert (Gt' : hget h' t = Some nt) by (unfold h'; rewrite hget_hset_other; auto).
    assert (Nt' : nunf h' nt t0).
    { destruct Nt as (? & U & ?). split; [|split]; auto. eapply kinv_unfs; eauto. }
    assert (Nback : forall e te, In e m -> nunf h' (e_key e) te -> nunf h (e_key e) te).
    { intros e te J (S1 & U1 & F1). split; [|split]; auto.
      eapply kinv_unfs with (h := h'); eauto using Minh'.
      - intros; symmetry; auto.
      - destruct (ki_ent _ _ _ M e J) as (_ & G & _). eapply kinv_edges; eauto. right. apply in_map; auto. }
    assert (Ment' : forall e, In e m -> exists te, nunf h' (e_key e) te /\ e_hash e = thash te /\ e_ptr e <> null).
    { intros e J. destruct (ki_ent _ _ _ (Minh' t) e J) as (? & _ & te & ? & ? & _). eauto. }
    assert (Ea : forall fuel, B <= fuel -> map_assign fuel h' m t = Ok m').
    { intros fuel Hf. unfold map_assign. rewrite (read_ok _ _ _ NNt Gt'). cbn.
      rewrite (node_hash_ok fuel h' nt t0 Nt') by lia. cbn.
      eapply map_replace_new; eauto. intros e J X. eapply Dn; eauto. }
    assert (Sup2 : forall r, In r (mptrs m') -> In r (mptrs m) \/ r = t).
    { intros r J. unfold m', mptrs in J. rewrite map_app in J. apply in_app_iff in J. destruct J as [J|[J|[]]]; auto. }
    assert (Sub : forall r, good m r -> good m' r).
    { intros r [J|J]; [left; auto|right]. unfold m', mptrs. rewrite map_app. apply in_app_iff. auto. }
    assert (Sup : forall r, good m' r -> good m r \/ r = t).
    { intros r [J|J]; [left; left; auto|]. apply Sup2 in J. destruct J; [left; right; auto|auto]. }
    assert (Ut' : unf h' t t0) by (eapply unf_intro; eauto).
    assert (M' : kinv B h' m').
    { pose proof (Minh' t) as M1. fold h' in M1. constructor.
      - intros e J. apply in_app_iff in J. destruct J as [J|[<-|[]]].
        + apply M1; auto.
        + cbn. split; auto. split; auto. exists t0. auto.
      - apply (ki_old _ _ _ M1).
      - intros r n3 d q J G K. apply Sup in J. apply Sub. destruct J as [J| ->].
        + eapply (ki_closed _ _ _ M1); eauto.
        + rewrite Gt' in G. injection G as <-. eauto.
      - intros e1 e2 t3 J1 J2 U1 U2. apply in_app_iff in J1, J2.
        assert (Cross : forall e, In e m -> unf h' (e_ptr e) t0 -> False).
        { intros e J U. destruct (ki_ent _ _ _ M1 e J) as (_ & G & te & Nte & _).
          assert (te = t0). { eapply unf_det; [|exact U]. eapply unf_intro; eauto. apply (ki_ent _ _ _ M1 e J). }
          subst. eapply Dn; eauto. }
        destruct J1 as [J1|[<-|[]]], J2 as [J2|[<-|[]]]; cbn in *; auto.
        + eapply (ki_inj _ _ _ M1); eauto.
        + exfalso. assert (t3 = t0) by (apply (unf_det h' t t3 t0); auto). subst. eauto.
        + exfalso. assert (t3 = t0) by (apply (unf_det h' t t3 t0); auto). subst. eauto. }
    assert (L1 : rinv B h0 h' root (Work un m' fl) frs' (T (nfin n) (edge_set es c t0))).
    { apply (Link t m' M' Ut'); auto. right. unfold m', mptrs. rewrite map_app. apply in_app_iff. cbn. auto. }
    exists h', m', frs', (T (nfin n) (edge_set es c t0)).
    split; [|split]; auto.
    intros fuel k Hf. cbn [minimize_loop w_unchecked w_minimized w_floating].
    rewrite Efind by auto. cbn [rbind]. rewrite N.eqb_refl.
    rewrite (add_edge_ok _ _ _ _ _ NNs Gs Gc). cbn [rbind]. fold h'. rewrite Ea by auto. auto.
  - (* an existing class *)
    destruct (ki_ent _ _ _ M e Je) as (NNe & Ge & te & Nte & _).
    assert (te = t0) by (eapply nunf_det; eauto). subst te.
    assert (Jg : good m (e_ptr e)) by (right; apply in_map; auto).
    assert (Uq : unf (hset h s (Node (nfin n) (edge_set (nedges n) c (e_ptr e)))) (e_ptr e) t0).
    { eapply unf_frame with (h := h) (P := good m).
      - apply (ki_closed _ _ _ M).
      - intros r J. apply hget_hset_other. intros ->. auto.
      - auto.
      - eapply unf_intro; eauto. }
    pose proof (Link (e_ptr e) m (Minh' _) Uq Jg) as L1. cbv zeta in L1.
    eexists _, m, frs', (T (nfin n) (edge_set es c t0)).
    split; [|split; [apply L1; auto|auto]].
    intros fuel k Hf. cbn [minimize_loop w_unchecked w_minimized w_floating].
    rewrite Efind by auto. cbn [rbind].
    apply N.eqb_neq in NNe. rewrite NNe.
    rewrite (add_edge_ok _ _ _ _ _ NNs Gs Gc). auto.
Qed.

Lemma rminimize_loop_ok : forall k B h0 h root w frs t0,
  rinv B h0 h root w frs t0 -> height (fill frs t0) <= B -> k <= length (w_unchecked w) ->
  exists h' w' frs' t0',
    (forall fuel, B <= fuel -> minimize_loop k fuel h w = Ok (h', w')) /\
    rinv B h0 h' root w' frs' t0' /\
    fill frs' t0' = fill frs t0 /\
    w_unchecked w' = skipn k (w_unchecked w).
Proof.
  induction k as [|k IH]; intros B h0 h root w frs t0 I Ht Lk.
  - exists h, w, frs, t0. auto.
  - destruct w as [[|[c s t] un] m fl]; cbn [w_unchecked length] in *; [lia|].
    destruct (rminimize_step B h0 h root c s t un m fl frs t0 I) as (h1 & m1 & frs1 & t1 & E & I1 & Fl).
    { pose proof (height_fill frs t0). lia. }
    destruct (IH B h0 h1 root (Work un m1 fl) frs1 t1 I1) as (h2 & w2 & frs2 & t2 & E2 & I2 & Fl2 & U2).
    { rewrite Fl. auto. } { cbn. lia. }
    exists h2, w2, frs2, t2.
    split. { intros. rewrite E by auto. auto. }
    split; [auto|]. split; [congruence|]. auto.
Qed.

(** ** Appending fresh nodes *)
Lemma rhget_null_top : forall B h0 h root w frs t0 p, rinv B h0 h root w frs t0 ->
  In p (root :: targets (w_unchecked w)) -> p <> null /\ In p (root :: w_floating w).
Proof.
  intros B h0 h root w frs t0 p I J.
  assert (In p (root :: w_floating w)) as K.
  { destruct J as [<-|J]; [left; auto|right]. apply (rv_tfloat _ _ _ _ _ _ _ I); auto. }
  split; auto. eapply (rv_own _ _ _ _ _ _ _ I); auto.
Qed.

Lemma old_new : forall B h0 h root w frs t0 p q, rinv B h0 h root w frs t0 ->
  good (w_minimized w) p -> hget h q = None -> p <> q.
Proof.
  intros B h0 h root w frs t0 p q I [J|J] G ->.
  - destruct (ki_old _ _ _ (rv_min _ _ _ _ _ _ _ I) _ J) as (t & U). destruct (unf_inv _ _ _ U) as (n & _ & Gn & _). congruence.
  - apply (rv_mfloat _ _ _ _ _ _ _ I) in J. destruct (rv_own _ _ _ _ _ _ _ I q (or_intror J)) as (_ & Al).
    unfold allocated in Al. congruence.
Qed.

Lemma rpush_one : forall alloc B h0 h root w frs t0 c, allocator alloc ->
  rinv B h0 h root w frs t0 ->
  (forall n, hget h (top root (w_unchecked w)) = Some n -> edge_get (nedges n) c = None) ->
  let q := alloc h in
  rinv B h0 (hset h q (Node false [])) root
    (Work (Trans c (top root (w_unchecked w)) q :: w_unchecked w) (w_minimized w) (set_insert q (w_floating w)))
    ((tfin t0, tedges t0, c) :: frs) leaf.
Proof.
  intros alloc B h0 h root w frs t0 c A I Lt q.
  destruct (A h) as [NN Fresh]. fold q in NN, Fresh.
  assert (Own : forall p, In p (root :: w_floating w) -> p <> q).
  { intros p J ->. destruct (rv_own _ _ _ _ _ _ _ I q J) as (_ & Al). unfold allocated in Al. congruence. }
  assert (E : forall p, p <> q -> hget (hset h q (Node false [])) p = hget h p).
  { intros. apply hget_hset_other; auto. }
  assert (Gn : forall p, good (w_minimized w) p -> p <> q).
  { intros p J. eapply old_new; eauto. }
  assert (Em : forall p, good (w_minimized w) p -> hget (hset h q (Node false [])) p = hget h p) by auto.
  assert (Eo : forall p, In p (root :: targets (w_unchecked w)) -> hget (hset h q (Node false [])) p = hget h p).
  { intros p J. apply E. apply Own. eapply rhget_null_top; eauto. }
  assert (Nq : ~ In q (root :: w_floating w)).
  { intros J. apply (Own _ J); auto. }
  destruct (unf_inv _ _ _ (rv_top _ _ _ _ _ _ _ I)) as (n & NNt & Gt & St & Ut & Ft).
  destruct (rv_edges _ _ _ _ _ _ _ I _ (top_In _ _)) as (n2 & G2 & _ & Et).
  rewrite Gt in G2. injection G2 as <-.
  constructor; cbn [w_unchecked w_minimized w_floating].
  - rewrite Ft. constructor.
    + rewrite Eo by apply top_In. auto.
    + eapply kinv_unfs; eauto. apply I.
    + eapply Lt; eauto.
    + eapply links_frame; eauto using rv_links, rv_min.
      * intros tr J. apply Eo. pose proof (links_sources _ _ _ _ (rv_links _ _ _ _ _ _ _ I) _ J) as X.
        destruct (w_unchecked w); cbn in *; tauto.
      * intros tr n3 J G3.
        pose proof (links_sources _ _ _ _ (rv_links _ _ _ _ _ _ _ I) _ J) as X.
        assert (In (t_source tr) (root :: targets (w_unchecked w))) as Y by (destruct (w_unchecked w); cbn in *; tauto).
        destruct (rv_edges _ _ _ _ _ _ _ I _ Y) as (n4 & G4 & _ & Ed).
        assert (n4 = n3) by congruence. subst; auto.
  - cbn. eapply unf_intro; [auto|apply hget_hset_same|]. repeat split; cbn; constructor.
  - eapply kinv_frame; eauto. apply I.
  - cbn. pose proof (rv_nodup _ _ _ _ _ _ _ I) as ND. inversion ND; subst.
    assert (~ In q (root :: targets (w_unchecked w))).
    { intros J. eapply Own; [eapply rhget_null_top; eauto|]. auto. }
    cbn in H. constructor; [cbn; intros [X|X]; [apply H; auto|auto] | constructor; tauto].
  - intros p J K. cbn in J. destruct J as [->|[->|J]].
    + eapply (rv_disj _ _ _ _ _ _ _ I); eauto. left; auto.
    + apply (Gn p K); auto.
    + eapply (rv_disj _ _ _ _ _ _ _ I); eauto. right; auto.
  - intros p J. cbn in J. destruct (N.eq_dec p q) as [->|Np].
    + exists (Node false []). split; [apply hget_hset_same|]. split; [constructor|]. intros ? ? [].
    + rewrite E by auto. apply (rv_edges _ _ _ _ _ _ _ I). cbn. intuition congruence.
  - pose proof (rv_float _ _ _ _ _ _ _ I) as ND. inversion ND; subst. constructor.
    + rewrite set_insert_In. intros [X|X]; [|auto]. apply Nq. left; auto.
    + apply set_insert_NoDup; auto.
  - intros p J. apply set_insert_In. right. apply (rv_mfloat _ _ _ _ _ _ _ I); auto.
  - intros p J. apply set_insert_In. cbn in J. destruct J as [->|J]; auto. right. apply (rv_tfloat _ _ _ _ _ _ _ I); auto.
  - intros p J. cbn in J. rewrite set_insert_In in J. rewrite E by tauto.
    apply (rv_base _ _ _ _ _ _ _ I). cbn. tauto.
  - intros p J. cbn in J. rewrite set_insert_In in J.
    destruct (N.eq_dec p q) as [->|Np].
    + split; auto. unfold allocated; rewrite hget_hset_same; discriminate.
    + unfold allocated. rewrite E by auto. apply (rv_own _ _ _ _ _ _ _ I). cbn. tauto.
  - intros p J. rewrite set_insert_In in J. destruct J as [->|J].
    + rewrite <- (rv_base _ _ _ _ _ _ _ I); auto.
    + apply (rv_new _ _ _ _ _ _ _ I); auto.
  - intros n0 d r G0 J. rewrite E by (apply Own; left; auto). eapply rv_kept; eauto.
Qed.

Lemma rpush_suffix_ok : forall alloc, allocator alloc ->
  forall rest B h0 h root w frs t0, rinv B h0 h root w frs t0 ->
  (forall c rest', rest = c :: rest' ->
     forall n, hget h (top root (w_unchecked w)) = Some n -> edge_get (nedges n) c = None) ->
  exists h' w' frs' t0',
    push_suffix alloc h w (top root (w_unchecked w)) rest = (h', w', top root (w_unchecked w')) /\
    rinv B h0 h' root w' frs' t0' /\
    fill frs' (T true (tedges t0')) = fill frs (tadd t0 rest) /\
    labels (w_unchecked w') = labels (w_unchecked w) ++ rest /\
    (rest = [] -> h' = h /\ w' = w).
Proof.
  intros alloc A. induction rest as [|c rest IH]; intros B h0 h root w frs t0 I Lt.
  - exists h, w, frs, t0. cbn. rewrite app_nil_r. split; [auto|]. split; [auto|]. split; [auto|]. split; auto.
  - cbn [push_suffix]. unfold new_node.
    pose proof (rpush_one alloc B h0 h root w frs t0 c A I (Lt c rest eq_refl)) as I1. cbv zeta in I1.
    set (q := alloc h) in *.
    set (w1 := Work (Trans c (top root (w_unchecked w)) q :: w_unchecked w) (w_minimized w) (set_insert q (w_floating w))) in *.
    destruct (IH B h0 (hset h q (Node false [])) root w1 ((tfin t0, tedges t0, c) :: frs) leaf I1)
      as (h' & w' & frs' & t0' & E & I' & Fl & La & D1).
    { intros c' rest' _ n G. unfold w1 in G; cbn [top w_unchecked t_target] in G. rewrite hget_hset_same in G. injection G as <-. auto. }
    exists h', w', frs', t0'. split; [exact E|]. split; [auto|].
    split; [|split].
    + rewrite Fl. cbn [fill tadd].
      replace (tget t0 c) with leaf; auto.
      unfold tget. destruct (unf_inv _ _ _ (rv_top _ _ _ _ _ _ _ I)) as (n & NNt & Gt & St & Ut & Ft).
      pose proof (unfs_get _ _ _ c Ut) as X. rewrite (Lt c rest eq_refl n Gt) in X. rewrite X. auto.
    + rewrite La. unfold w1, labels. cbn. rewrite <- app_assoc. auto.
    + discriminate.
Qed.

Lemma rset_final_ok : forall B h0 h root w frs t0, rinv B h0 h root w frs t0 ->
  exists n, hget h (top root (w_unchecked w)) = Some n /\
    let h' := hset h (top root (w_unchecked w)) (Node true (nedges n)) in
    set_final h (top root (w_unchecked w)) true = Ok h' /\
    rinv B h0 h' root w frs (T true (tedges t0)).
Proof.
  intros B h0 h root w frs t0 I.
  destruct (unf_inv _ _ _ (rv_top _ _ _ _ _ _ _ I)) as (n & NN & G & S & U & F).
  exists n. split; auto. cbv zeta. set (p := top root (w_unchecked w)) in *. split.
  - unfold set_final. rewrite (read_ok _ _ _ NN G). auto.
  - assert (E : forall q, q <> p -> hget (hset h p (Node true (nedges n))) q = hget h q).
    { intros. apply hget_hset_other; auto. }
    assert (Em : forall q, good (w_minimized w) q -> hget (hset h p (Node true (nedges n))) q = hget h q).
    { intros q J. apply E. intros ->. eapply (rv_disj _ _ _ _ _ _ _ I); eauto. apply top_In. }
    destruct (rv_edges _ _ _ _ _ _ _ I p (top_In _ _)) as (n2 & G2 & _ & Et).
    rewrite G in G2. injection G2 as <-.
    constructor; try apply I.
    + eapply links_frame_top; eauto.
    + eapply unf_intro; [auto | apply hget_hset_same |]. split; [|split]; cbn; auto.
      eapply kinv_unfs with (m := w_minimized w); eauto. apply I.
    + eapply kinv_frame; eauto. apply I.
    + intros q J. destruct (N.eq_dec q p) as [->|Nq].
      * exists (Node true (nedges n)). split; [apply hget_hset_same|]. cbn. auto.
      * rewrite E by auto. apply (rv_edges _ _ _ _ _ _ _ I); auto.
    + intros q J. rewrite E; [apply (rv_base _ _ _ _ _ _ _ I); auto|].
      intros ->. apply J. eapply rhget_null_top; eauto. apply top_In.
    + intros q J. destruct (rv_own _ _ _ _ _ _ _ I q J) as (? & Al). split; auto.
      unfold allocated in *. rewrite hget_hset. destruct (N.eqb q p); [discriminate|auto].
    + intros n0 d r G0 J. destruct (rv_kept _ _ _ _ _ _ _ I n0 d r G0 J) as (n3 & G3 & J3).
      destruct (N.eq_dec root p) as [Er|Nr].
      * rewrite Er in *. rewrite G in G3. injection G3 as <-. eexists. split; [apply hget_hset_same|]. auto.
      * exists n3. rewrite E by auto. auto.
Qed.

(** ** clean_up and destruction *)
Lemma rinv_unf : forall B h0 h root w frs t0 p, rinv B h0 h root w frs t0 ->
  In p (root :: targets (w_unchecked w)) -> exists t, unf h p t.
Proof.
  intros B h0 h root w frs t0 p I J.
  destruct (rv_edges _ _ _ _ _ _ _ I p J) as (n & G & S & Ed).
  destruct (kinv_unfs_ex B h (w_minimized w) (nedges n) (rv_min _ _ _ _ _ _ _ I) Ed) as (ts & U).
  exists (T (nfin n) ts). eapply unf_intro; eauto.
  - eapply rhget_null_top; eauto.
  - repeat split; auto.
Qed.

Lemma rinv_reach : forall B h0 h root w frs t0 p, rinv B h0 h root w frs t0 ->
  reach h root p -> p = root \/ good (w_minimized w) p.
Proof.
  intros B h0 h root w frs t0 p I R.
  eapply closed_reach with (P := fun p => p = root \/ good (w_minimized w) p); eauto.
  intros q n c r [->|J] G K.
  - right. destruct (rv_edges _ _ _ _ _ _ _ I root (or_introl eq_refl)) as (n2 & G2 & _ & Ed).
    assert (n2 = n) by congruence. subst. eauto.
  - right. eapply ki_closed; eauto. apply I.
Qed.

Lemma rclean_up_ok : forall B h0 h b w frs t0, b_work b = Some w ->
  rinv B h0 h (d_root (b_dawg b)) w frs t0 ->
  exists enough h',
    (forall fuel, enough <= fuel -> clean_up fuel h b = Ok (h', Builder (b_dawg b) (b_prev b) None)) /\
    (forall p, reach h (d_root (b_dawg b)) p -> hget h' p = hget h p /\
       (p = d_root (b_dawg b) \/ old p \/ hget h0 p = None)) /\
    (forall p, ~ reach h (d_root (b_dawg b)) p -> hget h' p = hget h0 p).
Proof.
  intros B h0 h b w frs t0 Hw I.
  set (root := d_root (b_dawg b)) in *.
  destruct (rinv_unf _ _ _ _ _ _ _ root I (or_introl eq_refl)) as (tr & U).
  destruct (all_nodes_all h (b_dawg b) tr U) as (nodes & E & ND & In0).
  fold root in In0.
  set (fl' := filter (fun p => negb (set_mem p nodes)) (w_floating w)).
  assert (If : forall p, In p fl' <-> In p (w_floating w) /\ ~ reach h root p).
  { intros p. unfold fl'. rewrite filter_In, <- In0. rewrite negb_true_iff, <- not_true_iff_false, set_mem_In. tauto. }
  destruct (delete_all_ok fl' h) as (h' & Ed & D1 & D2).
  - apply NoDup_filter.
    pose proof (rv_float _ _ _ _ _ _ _ I) as ND'. inversion ND'; auto.
  - intros p J. apply If in J. destruct J as [J _].
    destruct (rv_own _ _ _ _ _ _ _ I p (or_intror J)) as (? & ?). auto.
  - exists (tsize tr + 2), h'. split; [|split].
    + intros fuel Hf. unfold clean_up. rewrite Hw, E by auto. cbn. fold fl'. rewrite Ed. auto.
    + intros p R. split.
      * apply D2. rewrite If. tauto.
      * destruct (rinv_reach _ _ _ _ _ _ _ _ I R) as [->|[J|J]]; auto. right; right.
        apply (rv_new _ _ _ _ _ _ _ I). apply (rv_mfloat _ _ _ _ _ _ _ I); auto.
    + intros p NR. destruct (in_dec N.eq_dec p (w_floating w)) as [J|J].
      * rewrite D1 by (apply If; auto). symmetry. apply (rv_new _ _ _ _ _ _ _ I p J).
      * rewrite D2 by (rewrite If; tauto).
        apply (rv_base _ _ _ _ _ _ _ I). intros [X|X]; [|auto]. apply NR. rewrite <- X. apply reach_refl.
Qed.

End Reopen.

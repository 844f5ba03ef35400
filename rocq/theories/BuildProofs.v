(** * BuildProofs: the invariant of SortedDawg's incremental construction. *)
From Coq Require Import Sorting.Sorted.
From Verif Require Import Base Spec ModelHash ModelDawg SpecDawg TreeProofs HeapProofs.

(** ** Lookup among the minimized nodes *)
Definition mptrs (m : list entry) : list ptr := map e_ptr m.

Record minv (B : nat) (h : heap) (m : list entry) : Prop := {
  mi_ent : forall e, In e m ->
    e_ptr e <> null /\ hget h (e_ptr e) = Some (e_key e) /\
    exists t, nunf h (e_key e) t /\ e_hash e = thash t /\ height t <= B;
  mi_closed : closed h (fun p => In p (mptrs m));
  mi_inj : forall e1 e2 t, In e1 m -> In e2 m ->
    unf h (e_ptr e1) t -> unf h (e_ptr e2) t -> e_ptr e1 = e_ptr e2;
}.

Lemma node_eq_all : forall B h a b ta tb, nunf h a ta -> nunf h b tb -> height ta <= B ->
  exists r, (forall fuel, B <= fuel -> node_eq fuel h a b = Ok r) /\ (r = true <-> ta = tb).
Proof.
  intros B h a b ta tb A Bb H.
  destruct (node_eq_ok B h a b ta tb A Bb H) as (r & E & I).
  exists r. split; auto. intros fuel F.
  destruct (node_eq_ok fuel h a b ta tb A Bb) as (r' & E' & I'); [lia|].
  rewrite E'. f_equal. destruct r, r'; intuition congruence.
Qed.

Lemma map_find_ok : forall B h key t m, nunf h key t -> height t <= B ->
  (forall e, In e m -> exists te, nunf h (e_key e) te /\ e_hash e = thash te /\ e_ptr e <> null) ->
  exists p, (forall fuel, B <= fuel -> map_find fuel h (thash t) key m = Ok p) /\
    ((p = null /\ forall e, In e m -> ~ nunf h (e_key e) t) \/
     (exists e, In e m /\ p = e_ptr e /\ nunf h (e_key e) t)).
Proof.
  intros B h key t m K H. induction m as [|e m IH]; intros Hm.
  - exists null. split; [auto|]. left. split; auto.
  - destruct IH as (p & Ep & D); [intros; apply Hm; right; auto|].
    destruct (Hm e (or_introl eq_refl)) as (te & Ne & He & Pe).
    destruct (node_eq_all B h key (e_key e) t te K Ne H) as (r & Er & Ir).
    destruct (N.eqb (e_hash e) (thash t)) eqn:Eh.
    + destruct r.
      * exists (e_ptr e). split.
        -- intros. cbn. rewrite Eh, Er by auto. auto.
        -- right. exists e. split; [left; auto|]. split; auto.
           destruct Ir as [Ir _]. rewrite (Ir eq_refl). auto.
      * exists p. split.
        -- intros. cbn. rewrite Eh, Er by auto. cbn. auto.
        -- destruct D as [[-> D]|(e' & I & -> & D)].
           ++ left. split; auto. intros e' [<-|I]; auto. intros X.
              assert (te = t) by (eapply nunf_det; eauto). subst. destruct Ir as [_ Ir]. specialize (Ir eq_refl). discriminate.
           ++ right. exists e'. split; [right; auto|auto].
    + exists p. split.
      * intros. cbn. rewrite Eh. auto.
      * destruct D as [[-> D]|(e' & I & -> & D)].
        -- left. split; auto. intros e' [<-|I]; auto. intros X.
           assert (te = t) by (eapply nunf_det; eauto). subst.
           rewrite He, N.eqb_refl in Eh. discriminate.
        -- right. exists e'. split; [right; auto|auto].
Qed.

Lemma map_replace_new : forall B h key t p m, nunf h key t -> height t <= B ->
  (forall e, In e m -> exists te, nunf h (e_key e) te /\ e_hash e = thash te /\ e_ptr e <> null) ->
  (forall e, In e m -> ~ nunf h (e_key e) t) ->
  forall fuel, B <= fuel -> map_replace fuel h (thash t) key p m = Ok (m ++ [Entry (thash t) key p]).
Proof.
  intros B h key t p m K H. induction m as [|e m IH]; intros Hm Hn fuel F; cbn.
  - auto.
  - rewrite IH; [|intros; apply Hm; right; auto | intros; apply Hn; right; auto | auto].
    destruct (N.eqb (e_hash e) (thash t)) eqn:Eh; cbn; auto.
    destruct (Hm e (or_introl eq_refl)) as (te & Ne & He & Pe).
    destruct (node_eq_all B h key (e_key e) t te K Ne H) as (r & Er & Ir).
    rewrite Er by auto. cbn. destruct r; auto.
    destruct Ir as [Ir _]. specialize (Ir eq_refl). subst te.
    exfalso. apply (Hn e); auto. left; auto.
Qed.

(** ** Frames of the unchecked stack *)
Definition frame := (bool * list (char * tree) * char)%type.

Fixpoint fill (frs : list frame) (t : tree) : tree :=
  match frs with
  | [] => t
  | (f, es, c) :: frs' => fill frs' (T f (edge_set es c t))
  end.

Definition flabels (frs : list frame) : str := rev (map snd frs).

Lemma tadd_fill : forall frs t w, tadd (fill frs t) (flabels frs ++ w) = fill frs (tadd t w).
Proof.
  induction frs as [|[[f es] c] frs IH]; intros t w; cbn; auto.
  unfold flabels in *. cbn. rewrite <- app_assoc. cbn. rewrite IH. cbn.
  unfold tget. cbn. rewrite edge_get_set, ceqb_refl, edge_set_set. auto.
Qed.

Lemma height_fill : forall frs t, height t <= height (fill frs t).
Proof.
  induction frs as [|[[f es] c] frs IH]; intros t; cbn; auto.
  specialize (IH (T f (edge_set es c t))).
  assert (In (c, t) (edge_set es c t)).
  { apply edge_get_In. rewrite edge_get_set, ceqb_refl. auto. }
  apply (height_edge _ f) in H. lia.
Qed.

Definition top (root : ptr) (un : list trans) : ptr :=
  match un with [] => root | t :: _ => t_target t end.

Definition targets (un : list trans) : list ptr := map t_target un.

Inductive frames (h : heap) (root : ptr) : list trans -> list frame -> Prop :=
| frames_nil : frames h root [] []
| frames_cons : forall c t un frs n es,
    hget h (top root un) = Some n ->
    unfs h (nedges n) es ->
    (forall d q, In (d, q) (nedges n) -> (uchar d < uchar c)%N) ->
    frames h root un frs ->
    frames h root (Trans c (top root un) t :: un) ((nfin n, es, c) :: frs).

Definition labels (un : list trans) : str := rev (map t_label un).

Lemma frames_labels : forall h root un frs, frames h root un frs -> flabels frs = labels un.
Proof.
  unfold flabels, labels. intros h root un frs F. induction F; cbn; auto.
  rewrite IHF. auto.
Qed.

(** ** The invariant *)
Record inv (B : nat) (h0 h : heap) (root : ptr) (w : work) (frs : list frame) (t0 : tree) : Prop := {
  iv_frames : frames h root (w_unchecked w) frs;
  iv_top : unf h (top root (w_unchecked w)) t0;
  iv_min : minv B h (w_minimized w);
  iv_nodup : NoDup (root :: targets (w_unchecked w));
  iv_disj : forall p, In p (root :: targets (w_unchecked w)) -> ~ In p (mptrs (w_minimized w));
  iv_edges : forall p, In p (root :: targets (w_unchecked w)) ->
    exists n, hget h p = Some n /\ esorted (nedges n) /\
      forall c q, In (c, q) (nedges n) -> In q (mptrs (w_minimized w));
  iv_float : NoDup (root :: w_floating w);
  iv_mfloat : incl (mptrs (w_minimized w)) (w_floating w);
  iv_tfloat : incl (targets (w_unchecked w)) (w_floating w);
  iv_base : forall p, ~ In p (root :: w_floating w) -> hget h p = hget h0 p;
  iv_own : forall p, In p (root :: w_floating w) -> p <> null /\ allocated h p /\ hget h0 p = None;
}.

Lemma minv_frame : forall B h h' m, minv B h m ->
  (forall p, In p (mptrs m) -> hget h' p = hget h p) -> minv B h' m.
Proof.
  intros B h h' m M E.
  assert (C : closed h' (fun p => In p (mptrs m))).
  { intros p n c q I G J. rewrite E in G by auto. eapply mi_closed; eauto. }
  constructor; auto.
  - intros e I. destruct (mi_ent _ _ _ M e I) as (NN & G & t & (So & U & F) & Hh & Ht).
    split; auto. rewrite E by (apply in_map; auto). split; auto.
    exists t. split; auto. repeat split; auto.
    eapply unfs_frame with (h := h) (P := fun p => In p (mptrs m)); auto.
    + apply (mi_closed _ _ _ M).
    + intros c q J. apply (mi_closed _ _ _ M _ _ _ _ (in_map e_ptr _ _ I) G J).
  - intros e1 e2 t I1 I2 U1 U2.
    eapply (mi_inj _ _ _ M e1 e2 t); auto.
    + eapply unf_frame with (h := h') (P := fun p => In p (mptrs m)); eauto; [intros; symmetry; auto | apply in_map; auto].
    + eapply unf_frame with (h := h') (P := fun p => In p (mptrs m)); eauto; [intros; symmetry; auto | apply in_map; auto].
Qed.

Lemma minv_unfs : forall B h m es ts h', minv B h m ->
  (forall p, In p (mptrs m) -> hget h' p = hget h p) ->
  (forall c q, In (c, q) es -> In q (mptrs m)) -> unfs h es ts -> unfs h' es ts.
Proof. intros. eapply unfs_frame with (P := fun p => In p (mptrs m)); eauto using mi_closed. Qed.

Lemma minv_unfs_ex : forall B h m es, minv B h m ->
  (forall c q, In (c, q) es -> In q (mptrs m)) -> exists ts, unfs h es ts.
Proof.
  intros B h m es M. induction es as [|[c q] es IH]; intros H.
  - exists []. constructor.
  - destruct IH as (ts & U); [intros; eapply H; right; eauto|].
    assert (In q (mptrs m)) as I by (eapply H; left; eauto).
    apply in_map_iff in I. destruct I as (e & <- & I).
    destruct (mi_ent _ _ _ M e I) as (NN & G & t & N & _).
    exists ((c, t) :: ts). constructor; auto. eapply unf_intro; eauto.
Qed.

Lemma minv_edges : forall B h m p n, minv B h m -> In p (mptrs m) -> hget h p = Some n ->
  forall c q, In (c, q) (nedges n) -> In q (mptrs m).
Proof. intros. eapply mi_closed; eauto. Qed.

Lemma chain_sources : forall h root un frs, frames h root un frs ->
  forall tr, In tr un -> In (t_source tr) (root :: targets (tl un)).
Proof.
  intros h root un frs F. induction F; intros tr I; [destruct I|].
  cbn [tl]. destruct I as [<-|I].
  - cbn. destruct un; cbn; auto.
  - apply IHF in I. destruct un as [|x un]; cbn in *; auto. destruct I; auto.
Qed.

Lemma frames_frame : forall B h h' root un frs m, frames h root un frs -> minv B h m ->
  (forall p, In p (mptrs m) -> hget h' p = hget h p) ->
  (forall tr, In tr un -> hget h' (t_source tr) = hget h (t_source tr)) ->
  (forall tr n, In tr un -> hget h (t_source tr) = Some n -> forall c q, In (c, q) (nedges n) -> In q (mptrs m)) ->
  frames h' root un frs.
Proof.
  intros B h h' root un frs m F M E. induction F; intros Es Hm; [constructor|].
  constructor; auto.
  - rewrite <- H. apply (Es (Trans c (top root un) t)). left; auto.
  - eapply minv_unfs; eauto. eapply (Hm (Trans c (top root un) t)); eauto. left; auto.
  - apply IHF.
    + intros. apply Es. right; auto.
    + intros tr m' I. apply Hm. right; auto.
Qed.

Lemma top_In : forall root un, In (top root un) (root :: targets un).
Proof. intros. destruct un; cbn; auto. Qed.

Lemma frames_frame_top : forall B h0 h root w frs t0 n',
  inv B h0 h root w frs t0 ->
  frames (hset h (top root (w_unchecked w)) n') root (w_unchecked w) frs.
Proof.
  intros B h0 h root w frs t0 n' I.
  assert (Hs : forall tr, In tr (w_unchecked w) -> In (t_source tr) (root :: targets (tl (w_unchecked w)))).
  { eapply chain_sources. apply I. }
  assert (Sub : forall p, In p (root :: targets (tl (w_unchecked w))) -> In p (root :: targets (w_unchecked w))).
  { intros p J. destruct (w_unchecked w); cbn in *; auto. tauto. }
  eapply frames_frame; eauto using iv_frames, iv_min.
  - intros p J. apply hget_hset_other. intros ->. eapply (iv_disj _ _ _ _ _ _ _ I); eauto. apply top_In.
  - intros tr J. apply hget_hset_other. intros E.
    specialize (Hs _ J). rewrite E in Hs.
    pose proof (iv_nodup _ _ _ _ _ _ _ I) as ND.
    destruct (w_unchecked w) as [|x un]; [destruct J|]. cbn in *.
    inversion ND as [|? ? N1 N2]; subst. inversion N2; subst.
    destruct Hs as [Hs|Hs]; [apply N1; left; auto | auto].
  - intros tr n J G. specialize (Hs _ J). apply Sub in Hs.
    destruct (iv_edges _ _ _ _ _ _ _ I _ Hs) as (n2 & G2 & _ & Ed).
    assert (n2 = n) by congruence. subst; auto.
Qed.

Lemma add_edge_ok : forall h p n c q, p <> null -> hget h p = Some n -> edge_get (nedges n) c = None ->
  add_edge h p c q = Ok (hset h p (Node (nfin n) (edge_set (nedges n) c q))).
Proof.
  intros. unfold add_edge, transition. rewrite (read_ok _ _ _ H H0). cbn. rewrite H1. cbn.
  rewrite (read_ok _ _ _ H H0). auto.
Qed.

(** [keeps root h w h' w']: on the way from [h] to [h'] registered nodes stayed
    as they were, and the root lost no edge. *)
Definition keeps (root : ptr) (h : heap) (w : work) (h' : heap) (w' : work) : Prop :=
  (forall p, In p (mptrs (w_minimized w)) -> In p (mptrs (w_minimized w')) /\ hget h' p = hget h p) /\
  (forall n, hget h root = Some n -> exists n', hget h' root = Some n' /\ incl (nedges n) (nedges n') /\
     (nfin n = true -> nfin n' = true)).

Lemma keeps_refl : forall root h w, keeps root h w h w.
Proof. intros. split; auto. intros n G. exists n. split; auto. split; auto. apply incl_refl. Qed.

Lemma keeps_trans : forall root h1 w1 h2 w2 h3 w3, keeps root h1 w1 h2 w2 -> keeps root h2 w2 h3 w3 -> keeps root h1 w1 h3 w3.
Proof.
  intros root h1 w1 h2 w2 h3 w3 [A1 A2] [B1 B2]. split.
  - intros p J. destruct (A1 p J) as [J2 E2]. destruct (B1 p J2) as [J3 E3]. split; congruence.
  - intros n G. destruct (A2 n G) as (n2 & G2 & I2 & F2). destruct (B2 n2 G2) as (n3 & G3 & I3 & F3).
    exists n3. split; auto. split; auto. eapply incl_tran; eauto.
Qed.

(** One iteration of minimize. *)
Lemma minimize_step_keeps : forall B h0 h root c s t un m fl frs t0,
  inv B h0 h root (Work (Trans c s t :: un) m fl) frs t0 -> height t0 <= B ->
  exists h' m' frs' t0' n',
    (forall fuel k, B <= fuel ->
      minimize_loop (S k) fuel h (Work (Trans c s t :: un) m fl) = minimize_loop k fuel h' (Work un m' fl)) /\
    inv B h0 h' root (Work un m' fl) frs' t0' /\
    fill frs' t0' = fill frs t0 /\
    hget h' (top root un) = Some n' /\
    (forall d q, In (d, q) (nedges n') -> (uchar d <= uchar c)%N) /\
    keeps root h (Work (Trans c s t :: un) m fl) h' (Work un m' fl).
Proof.
  intros B h0 h root c s t un m fl frs t0 I Ht.
  pose proof (iv_frames _ _ _ _ _ _ _ I) as F. cbn [w_unchecked] in F.
  inversion F as [|c' t' un' frs' n es Gs Us Lt F']; subst. clear F.
  pose proof (iv_top _ _ _ _ _ _ _ I) as Ut. cbn [w_unchecked top t_target] in Ut.
  destruct (unf_inv _ _ _ Ut) as (nt & NNt & Gt & Nt).
  pose proof (iv_min _ _ _ _ _ _ _ I) as M. cbn [w_minimized] in M.
  set (s := top root un) in *.
  assert (Js : In s (root :: targets (Trans c s t :: un))).
  { pose proof (top_In root un) as X. cbn in *. fold s in X. tauto. }
  pose proof (iv_disj _ _ _ _ _ _ _ I s Js) as Ds. cbn [w_minimized] in Ds.
  destruct (iv_edges _ _ _ _ _ _ _ I s Js) as (n2 & Gs2 & Ss & Es). cbn [w_minimized] in Es.
  rewrite Gs in Gs2. injection Gs2 as <-.
  assert (NNs : s <> null).
  { eapply (iv_own _ _ _ _ _ _ _ I). cbn [w_floating]. pose proof (iv_tfloat _ _ _ _ _ _ _ I) as X. cbn in X.
    pose proof (top_In root un) as Y. fold s in Y. destruct Y as [Y|Y]; [left; auto|right; apply X; right; auto]. }
  assert (Nts : t <> s).
  { pose proof (iv_nodup _ _ _ _ _ _ _ I) as ND. cbn in ND. inversion ND as [|? ? N1 N2]; subst.
    inversion N2; subst. intros E. rewrite E in *. pose proof (top_In root un) as Y. fold s in Y.
    destruct Y as [Y|Y]; [apply N1; left; congruence | auto]. }
  assert (Jt : In t (root :: targets (Trans c s t :: un))) by (cbn; auto).
  pose proof (iv_disj _ _ _ _ _ _ _ I t Jt) as Dt. cbn [w_minimized] in Dt.
  destruct (iv_edges _ _ _ _ _ _ _ I t Jt) as (nt2 & Gt2 & St & Et). cbn [w_minimized] in Et.
  rewrite Gt in Gt2. injection Gt2 as <-.
  assert (Gc : edge_get (nedges n) c = None).
  { apply edge_get_None. intros q J. apply Lt in J. lia. }
  assert (Ment : forall e, In e m -> exists te, nunf h (e_key e) te /\ e_hash e = thash te /\ e_ptr e <> null).
  { intros e J. destruct (mi_ent _ _ _ M e J) as (? & _ & te & ? & ? & _). eauto. }
  destruct (map_find_ok B h nt t0 m Nt Ht Ment) as (p & Ep & D).
  assert (Efind : forall fuel, B <= fuel -> minimized_node fuel h m t = Ok p).
  { intros fuel Hf. unfold minimized_node. rewrite (read_ok _ _ _ NNt Gt). cbn.
    rewrite (node_hash_ok fuel h nt t0 Nt) by lia. cbn. auto. }
  (* common part: linking s to a node q that unfolds to t0 *)
  assert (Link : forall q m', let h' := hset h s (Node (nfin n) (edge_set (nedges n) c q)) in
    minv B h' m' -> unf h' q t0 -> In q (mptrs m') -> (forall r, In r (mptrs m) -> In r (mptrs m')) ->
    (forall r, In r (mptrs m') -> In r (mptrs m) \/ r = t) ->
    inv B h0 h' root (Work un m' fl) frs' (T (nfin n) (edge_set es c t0)) /\
    hget h' s = Some (Node (nfin n) (edge_set (nedges n) c q)) /\
    (forall d r, In (d, r) (edge_set (nedges n) c q) -> (uchar d <= uchar c)%N)).
  { intros q m' h' M' Uq Jq Sub Sup.
    assert (E : forall r, r <> s -> hget h' r = hget h r) by (intros; apply hget_hset_other; auto).
    assert (Em : forall r, In r (mptrs m) -> hget h' r = hget h r).
    { intros r J. apply E. intros ->. auto. }
    split; [|split].
    - constructor; cbn [w_unchecked w_minimized w_floating].
      + (* frames *)
        eapply frames_frame; eauto.
        * intros tr J. apply E.
          pose proof (chain_sources _ _ _ _ F' _ J) as X.
          pose proof (iv_nodup _ _ _ _ _ _ _ I) as ND. cbn in ND.
          intros Y. rewrite Y in X. unfold s in X, Y. destruct un as [|x un2]; [destruct J|].
          cbn in X, ND. inversion ND as [|? ? N1 N2]; subst. inversion N2 as [|? ? N3 N4]; subst.
          inversion N4; subst. cbn in N1. destruct X as [X|X]; [apply N1; auto | auto].
        * intros tr n3 J G3. pose proof (chain_sources _ _ _ _ F' _ J) as X.
          assert (In (t_source tr) (root :: targets (Trans c s t :: un))) as Y.
          { destruct un; [destruct J|]. cbn in *. tauto. }
          destruct (iv_edges _ _ _ _ _ _ _ I _ Y) as (n4 & G4 & _ & Ed).
          cbn in Ed. assert (n4 = n3) by congruence. subst; auto.
      + (* top *)
        change (top root un) with s.
        eapply unf_intro; [auto | apply hget_hset_same |].
        split; [|split]; cbn; auto.
        * apply edge_set_sorted; auto.
        * apply unfs_set; auto. eapply minv_unfs with (h := h) (m := m); eauto.
      + auto.
      + pose proof (iv_nodup _ _ _ _ _ _ _ I) as ND. cbn in ND. inversion ND as [|? ? N1 N2]; subst.
        inversion N2; subst. constructor; auto. intros X. apply N1. right; auto.
      + intros r J K.
        assert (J' : In r (root :: targets (Trans c s t :: un))) by (cbn in *; tauto).
        apply Sup in K. destruct K as [K| ->].
        * eapply (iv_disj _ _ _ _ _ _ _ I); eauto.
        * pose proof (iv_nodup _ _ _ _ _ _ _ I) as ND. cbn in ND. inversion ND as [|? ? N1 N2]; subst.
          inversion N2; subst. destruct J as [J|J]; [apply N1; left; auto | auto].
      + intros r J.
        assert (J' : In r (root :: targets (Trans c s t :: un))) by (cbn in *; tauto).
        destruct (N.eq_dec r s) as [->|Nr].
        * exists (Node (nfin n) (edge_set (nedges n) c q)). split; [apply hget_hset_same|].
          cbn. split; [apply edge_set_sorted; auto|].
          intros d r K. apply edge_set_In in K. destruct K as [[-> ->]|K]; auto. eauto.
        * destruct (iv_edges _ _ _ _ _ _ _ I r J') as (n3 & G3 & S3 & E3). cbn in E3.
          exists n3. rewrite E by auto. split; auto. split; auto. eauto.
      + apply I.
      + intros r K. apply Sup in K. destruct K as [K| ->].
        * apply (iv_mfloat _ _ _ _ _ _ _ I); auto.
        * apply (iv_tfloat _ _ _ _ _ _ _ I). cbn. auto.
      + intros r K. apply (iv_tfloat _ _ _ _ _ _ _ I). cbn. auto.
      + intros r K. cbn in K. rewrite E.
        * apply (iv_base _ _ _ _ _ _ _ I). auto.
        * intros ->. apply K. pose proof (top_In root un) as Y. fold s in Y.
          destruct Y as [Y|Y]; auto. right. apply (iv_tfloat _ _ _ _ _ _ _ I). cbn. auto.
      + intros r K. destruct (iv_own _ _ _ _ _ _ _ I r K) as (? & Al & ?). split; auto. split; auto.
        unfold allocated in *. unfold h'. rewrite hget_hset. destruct (N.eqb r s); [discriminate|auto].
    - apply hget_hset_same.
    - intros d r K. apply edge_set_In in K. destruct K as [[-> ->]|K]; [lia|]. apply Lt in K. lia. }
  assert (Minh' : forall q, minv B (hset h s (Node (nfin n) (edge_set (nedges n) c q))) m).
  { intros q. eapply minv_frame; eauto. intros r J. apply hget_hset_other. intros ->. auto. }
  assert (Keep : forall q m' w w', (forall r, In r (mptrs m) -> In r (mptrs m')) -> w_minimized w = m -> w_minimized w' = m' ->
    keeps root h w (hset h s (Node (nfin n) (edge_set (nedges n) c q))) w').
  { intros q m' w w' Sub Ew Ew'. split.
    - rewrite Ew, Ew'. intros r J. split; auto. apply hget_hset_other. intros ->. auto.
    - intros n3 G3. destruct (N.eq_dec root s) as [Er|Nr].
      + rewrite Er in *. rewrite Gs in G3. injection G3 as <-. eexists. split; [apply hget_hset_same|].
        cbn. split; auto. intros [d r] J. assert (c <> d). { intros ->. apply Lt in J. lia. }
        apply edge_get_In. rewrite edge_get_set.
        destruct (ceqb_spec d c) as [[-> E]|[N E]]; [congruence|]. rewrite E.
        apply edge_In_get; auto.
      + exists n3. rewrite hget_hset_other by auto. split; auto. split; auto. apply incl_refl. }
  destruct D as [[-> Dn]|(e & Je & -> & Ne)].
  - (* a new class *)
    set (h' := hset h s (Node (nfin n) (edge_set (nedges n) c t))) in *.
    assert (Em : forall r, In r (mptrs m) -> hget h' r = hget h r).
    { intros r J. apply hget_hset_other. intros ->. auto. }
    assert (Gt' : hget h' t = Some nt) by (unfold h'; rewrite hget_hset_other; auto).
    assert (Nt' : nunf h' nt t0).
    { destruct Nt as (? & U & ?). split; [|split]; auto. eapply minv_unfs; eauto. }
    assert (Nback : forall e te, In e m -> nunf h' (e_key e) te -> nunf h (e_key e) te).
    { intros e te J (S1 & U1 & F1). split; [|split]; auto.
      eapply minv_unfs with (h := h'); eauto using Minh'.
      - intros; symmetry; auto.
      - destruct (mi_ent _ _ _ M e J) as (_ & G & _). eapply minv_edges; eauto. apply in_map; auto. }
    assert (Ment' : forall e, In e m -> exists te, nunf h' (e_key e) te /\ e_hash e = thash te /\ e_ptr e <> null).
    { intros e J. destruct (mi_ent _ _ _ (Minh' t) e J) as (? & _ & te & ? & ? & _). eauto. }
    assert (Ea : forall fuel, B <= fuel -> map_assign fuel h' m t = Ok (m ++ [Entry (thash t0) nt t])).
    { intros fuel Hf. unfold map_assign. rewrite (read_ok _ _ _ NNt Gt'). cbn.
      rewrite (node_hash_ok fuel h' nt t0 Nt') by lia. cbn.
      eapply map_replace_new; eauto. intros e J X. eapply Dn; eauto. }
    assert (Sub : forall r, In r (mptrs m) -> In r (mptrs (m ++ [Entry (thash t0) nt t]))).
    { intros. unfold mptrs. rewrite map_app. apply in_app_iff. auto. }
    assert (Sup : forall r, In r (mptrs (m ++ [Entry (thash t0) nt t])) -> In r (mptrs m) \/ r = t).
    { intros r J. unfold mptrs in J. rewrite map_app in J. apply in_app_iff in J. destruct J as [J|[J|[]]]; auto. }
    assert (Ut' : unf h' t t0) by (eapply unf_intro; eauto).
    assert (M' : minv B h' (m ++ [Entry (thash t0) nt t])).
    { pose proof (Minh' t) as M1. fold h' in M1. constructor.
      - intros e J. apply in_app_iff in J. destruct J as [J|[<-|[]]].
        + apply M1; auto.
        + cbn. split; auto. split; auto. exists t0. auto.
      - intros r n3 d q J G K. apply Sup in J. apply Sub. destruct J as [J| ->].
        + eapply (mi_closed _ _ _ M1); eauto.
        + rewrite Gt' in G. injection G as <-. eauto.
      - intros e1 e2 t3 J1 J2 U1 U2. apply in_app_iff in J1, J2.
        assert (Cross : forall e, In e m -> unf h' (e_ptr e) t0 -> False).
        { intros e J U. destruct (mi_ent _ _ _ M1 e J) as (_ & G & te & Nte & _).
          assert (te = t0). { eapply unf_det; [|exact U]. eapply unf_intro; eauto. apply (mi_ent _ _ _ M1 e J). }
          subst. eapply Dn; eauto. }
        destruct J1 as [J1|[<-|[]]], J2 as [J2|[<-|[]]]; cbn in *; auto.
        + eapply (mi_inj _ _ _ M1); eauto.
        + exfalso. assert (t3 = t0) by (apply (unf_det h' t t3 t0); auto). subst. eauto.
        + exfalso. assert (t3 = t0) by (apply (unf_det h' t t3 t0); auto). subst. eauto. }
    destruct (Link t (m ++ [Entry (thash t0) nt t]) M' Ut') as (L1 & L2 & L3); auto.
    { unfold mptrs. rewrite map_app. apply in_app_iff. cbn. auto. }
    exists h', (m ++ [Entry (thash t0) nt t]), frs', (T (nfin n) (edge_set es c t0)),
      (Node (nfin n) (edge_set (nedges n) c t)).
    split; [|split; [|split; [|split; [|split]]]]; auto; [|eapply Keep; [exact Sub|reflexivity|reflexivity]].
    intros fuel k Hf. cbn [minimize_loop w_unchecked w_minimized w_floating].
    rewrite Efind by auto. cbn [rbind]. rewrite N.eqb_refl.
    rewrite (add_edge_ok _ _ _ _ _ NNs Gs Gc). cbn [rbind]. fold h'. rewrite Ea by auto. auto.
  - (* an existing class *)
    destruct (mi_ent _ _ _ M e Je) as (NNe & Ge & te & Nte & _).
    assert (te = t0) by (eapply nunf_det; eauto). subst te.
    assert (Uq : unf (hset h s (Node (nfin n) (edge_set (nedges n) c (e_ptr e)))) (e_ptr e) t0).
    { eapply unf_frame with (h := h) (P := fun r => In r (mptrs m)).
      - apply (mi_closed _ _ _ M).
      - intros r J. apply hget_hset_other. intros ->. auto.
      - apply in_map; auto.
      - eapply unf_intro; eauto. }
    destruct (Link (e_ptr e) m (Minh' _) Uq) as (L1 & L2 & L3); auto.
    { apply in_map; auto. }
    eexists _, m, frs', (T (nfin n) (edge_set es c t0)), _.
    split; [|split; [exact L1|split; [|split; [exact L2 | split; [exact L3|]]]]]; auto;
      [|eapply Keep; [|reflexivity|reflexivity]; auto].
    intros fuel k Hf. cbn [minimize_loop w_unchecked w_minimized w_floating].
    rewrite Efind by auto. cbn [rbind].
    apply N.eqb_neq in NNe. rewrite NNe.
    rewrite (add_edge_ok _ _ _ _ _ NNs Gs Gc). auto.
Qed.

Lemma minimize_step : forall B h0 h root c s t un m fl frs t0,
  inv B h0 h root (Work (Trans c s t :: un) m fl) frs t0 -> height t0 <= B ->
  exists h' m' frs' t0' n',
    (forall fuel k, B <= fuel ->
      minimize_loop (S k) fuel h (Work (Trans c s t :: un) m fl) = minimize_loop k fuel h' (Work un m' fl)) /\
    inv B h0 h' root (Work un m' fl) frs' t0' /\
    fill frs' t0' = fill frs t0 /\
    hget h' (top root un) = Some n' /\
    (forall d q, In (d, q) (nedges n') -> (uchar d <= uchar c)%N).
Proof.
  intros B h0 h root c s t un m fl frs t0 I Ht.
  destruct (minimize_step_keeps B h0 h root c s t un m fl frs t0 I Ht) as (h' & m' & frs' & t0' & n' & X1 & X2 & X3 & X4 & X5 & _).
  exists h', m', frs', t0', n'. auto.
Qed.

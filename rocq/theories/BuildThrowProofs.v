(** * BuildThrowProofs: SortedDawg when allocations fail. *)
From Coq Require Import Sorting.Sorted.
From Verif Require Import Base Spec ModelHash ModelDawg SpecDawg TreeProofs HeapProofs BuildProofs BuildProofs2
  IterProofs DawgProofs ModelThrow ModelBuildThrow SpecBuildThrow.

(** ** Budgets *)
Lemma spend_fails b : spend b = None -> b <> None.
Proof. destruct b as [[|k]|]; cbn; congruence. Qed.
Lemma spend_goes b b1 : spend b = Some b1 -> b = None -> b1 = None.
Proof. intros E ->. cbn in E. congruence. Qed.

Lemma many_fails k : forall b, spend_many k b = None -> b <> None.
Proof.
  induction k as [|k IH]; intros b; cbn; [discriminate|]. destruct (spend b) as [b1|] eqn:E.
  - intros X Y. exact (IH _ X (spend_goes _ _ E Y)).
  - intros _. now apply spend_fails.
Qed.
Lemma many_goes k : forall b b1, spend_many k b = Some b1 -> b = None -> b1 = None.
Proof.
  induction k as [|k IH]; intros b b1; cbn; [congruence|]. destruct (spend b) as [b2|] eqn:E; [|discriminate].
  intros X Y. exact (IH _ _ X (spend_goes _ _ E Y)).
Qed.

(** ** What succeeds does what it does with enough memory *)
Lemma try_add_edge_same b h p c q b' h' : try_add_edge b h p c q = Ok (b', h', true) -> add_edge h p c q = Ok h'.
Proof.
  unfold try_add_edge, add_edge. destruct (read h p) as [n| |]; try discriminate. cbn [rbind].
  destruct (delete h _) as [h1| |]; try discriminate. cbn [rbind].
  destruct (spend b); try discriminate. destruct (read h1 p); try discriminate. cbn. congruence.
Qed.

Lemma try_minimize_same fuel : forall k b h w b' h' w',
  try_minimize_loop k fuel b h w = Ok (b', h', w', true) -> minimize_loop k fuel h w = Ok (h', w').
Proof.
  induction k as [|k IH]; intros b h [[|[c s t] un] m fl] b' h' w'; cbn; try (intros; congruence).
  destruct (spend b); try discriminate.
  destruct (minimized_node fuel h m t) as [e| |]; try discriminate. cbn [rbind].
  destruct (N.eqb e null).
  - destruct (try_add_edge _ h s c t) as [[[b2 h1] [|]]| |] eqn:E; try discriminate.
    cbn [rbind negb]. apply try_add_edge_same in E. rewrite E. cbn [rbind].
    destruct (spend b2); try discriminate. destruct (map_assign fuel h1 m t); try discriminate. cbn [rbind]. apply IH.
  - destruct (try_add_edge _ h s c e) as [[[b2 h1] [|]]| |] eqn:E; try discriminate.
    cbn [rbind negb]. apply try_add_edge_same in E. rewrite E. cbn [rbind]. apply IH.
Qed.

Lemma try_push_same alloc : forall rest b h w s b' h' w' p,
  try_push_suffix alloc b h w s rest = (b', h', w', Some p) -> push_suffix alloc h w s rest = (h', w', p).
Proof.
  induction rest as [|c rest IH]; intros b h w s b' h' w' p; cbn; [congruence|].
  destruct (spend b) as [b1|]; try discriminate. destruct (spend b1) as [b2|]; try discriminate.
  destruct (spend b2) as [b3|]; try discriminate. apply IH.
Qed.

Lemma try_add_same fuel alloc b h bd t b' h' bd' r :
  try_add fuel alloc b h bd t = Ok (b', h', bd', Some r) -> add fuel alloc h bd t = Ok (r, h', bd').
Proof.
  unfold try_add, add. destruct (str_ltb t (b_prev bd)); [congruence|]. destruct t as [|c t].
  - destruct (set_final h _ true); cbn; congruence.
  - destruct (deref (b_work bd)) as [w| |]; try discriminate. cbn [rbind]. unfold try_minimize, minimize.
    destruct (try_minimize_loop _ fuel b h w) as [[[[b1 h1] w1] [|]]| |] eqn:E; try discriminate.
    apply try_minimize_same in E. rewrite E. cbn [rbind negb].
    destruct (try_push_suffix alloc b1 h1 w1 _ _) as [[[b2 h2] w2] [p|]] eqn:E2; [|discriminate].
    apply try_push_same in E2. rewrite E2. destruct (set_final h2 p true) as [h3| |]; try discriminate. cbn [rbind].
    destruct (spend b2); try discriminate. congruence.
Qed.

Lemma try_finish_same fuel b h bd b' h' bd' :
  try_finish fuel b h bd = Ok (b', h', bd', true) -> finish fuel h bd = Ok (h', bd').
Proof.
  unfold try_finish, finish, try_minimize, minimize. destruct (deref (b_work bd)) as [w| |]; try discriminate. cbn [rbind].
  destruct (try_minimize_loop _ fuel b h w) as [[[[b1 h1] w1] [|]]| |] eqn:E; try discriminate.
  apply try_minimize_same in E. rewrite E. cbn. congruence.
Qed.

Lemma try_nodes_same h : forall fuel b ps ns b' out,
  try_all_nodes_loop fuel b h ps ns = Ok (b', Some out) -> all_nodes_loop fuel h ps ns = Ok out.
Proof.
  induction fuel as [|fuel IH]; intros b ps ns b' out; cbn; try discriminate.
  destruct ps as [|p ps]; [congruence|]. destruct (spend b); try discriminate.
  destruct (read h p) as [n| |]; try discriminate. cbn [rbind].
  destruct (spend_many _ _); try discriminate. apply IH.
Qed.

Lemma try_clean_same fuel b h bd b' h' bd' :
  try_clean_up fuel b h bd = Ok (b', h', bd', true) -> clean_up fuel h bd = Ok (h', bd').
Proof.
  unfold try_clean_up, clean_up, try_all_nodes, all_nodes. destruct (b_work bd) as [w|]; [|congruence].
  destruct (spend b) as [b1|]; [|discriminate].
  destruct (try_all_nodes_loop _ _ _ _ _) as [[b2 [ns|]]| |] eqn:E; try discriminate.
  apply try_nodes_same in E. rewrite E. cbn [rbind].
  destruct (delete_all h _) as [h1| |]; cbn; congruence.
Qed.

Lemma try_destroy_same fuel b h bd b' h' :
  try_destroy fuel b h bd = Ok (b', Some h') -> destroy fuel h bd = Ok h'.
Proof.
  unfold try_destroy, destroy, destroy_dawg.
  destruct (try_clean_up fuel b h bd) as [[[[b1 h1] bd1] [|]]| |] eqn:E; try discriminate.
  apply try_clean_same in E. rewrite E. cbn [rbind negb]. unfold try_all_nodes, all_nodes.
  destruct (spend b1) as [b2|]; [|discriminate].
  destruct (try_all_nodes_loop _ _ _ _ _) as [[b3 [ns|]]| |] eqn:E2; try discriminate.
  apply try_nodes_same in E2. rewrite E2. cbn [rbind].
  destruct (delete_all h1 _) as [h2| |]; cbn; congruence.
Qed.

(** ** The words of a tree with a hole *)
Lemma fill_here frs t u : tin (fill frs t) (flabels frs ++ u) = tin t u.
Proof.
  revert t u. induction frs as [|[[f es] c] frs IH]; intros t u; [reflexivity|].
  unfold flabels in *. cbn. rewrite <- app_assoc. cbn. rewrite IH. cbn.
  now rewrite edge_get_set, ceqb_refl.
Qed.

Lemma fill_elsewhere frs : forall t t' v, ~ begins (flabels frs) v -> tin (fill frs t) v = tin (fill frs t') v.
Proof.
  induction frs as [|[[f es] c] frs IH]; intros t t' v N.
  - destruct N. exists v. reflexivity.
  - unfold flabels in *. cbn in *.
    destruct (list_eq_dec Ascii.ascii_dec (firstn (length (rev (map snd frs))) v) (rev (map snd frs))) as [E|E].
    + pose proof (firstn_skipn (length (rev (map snd frs))) v) as F. rewrite E in F. rewrite <- F.
      rewrite !fill_here. set (u := skipn _ v) in *. destruct u as [|d u]; [reflexivity|]. cbn.
      rewrite !edge_get_set. destruct (ceqb_spec d c) as [[-> X]|[_ X]]; rewrite X; [|reflexivity].
      destruct N. exists u. rewrite <- F, <- app_assoc. reflexivity.
    + apply IH. intros [rest ->]. apply E. now rewrite firstn_app, Nat.sub_diag, firstn_all, app_nil_r.
Qed.

(** Two trees with the same words in the hole. *)
Lemma fill_same frs t t' : (forall u, tin t u = tin t' u) -> forall v, tin (fill frs t) v = tin (fill frs t') v.
Proof.
  intros E v. destruct (list_eq_dec Ascii.ascii_dec (firstn (length (flabels frs)) v) (flabels frs)) as [X|X].
  - pose proof (firstn_skipn (length (flabels frs)) v) as F. rewrite X in F. rewrite <- F, !fill_here. apply E.
  - apply fill_elsewhere. intros [rest ->]. apply X. now rewrite firstn_app, Nat.sub_diag, firstn_all, app_nil_r.
Qed.

(** An edge taken away. *)
Lemma fill_without frs f es c t0 v : edge_get es c = None ->
  (tin (fill frs (T f es)) v = true <->
   tin (fill frs (T f (edge_set es c t0))) v = true /\ ~ begins (flabels frs ++ [c]) v).
Proof.
  intros G. destruct (list_eq_dec Ascii.ascii_dec (firstn (length (flabels frs)) v) (flabels frs)) as [X|X].
  - pose proof (firstn_skipn (length (flabels frs)) v) as F. rewrite X in F. rewrite <- F, !fill_here.
    set (u := skipn _ v) in *. clearbody u. destruct u as [|d u]; cbn.
    + rewrite app_nil_r. split; [intros H|tauto]. split; [exact H|]. intros [rest Y].
      apply (f_equal (@length _)) in Y. rewrite !app_length in Y. cbn in Y. lia.
    + rewrite edge_get_set. destruct (ceqb_spec d c) as [[-> Y]|[N Y]]; rewrite Y.
      * rewrite G. split; [discriminate|]. intros [_ []]. exists u. now rewrite <- app_assoc.
      * split; [|tauto]. intros H. split; [exact H|]. intros [rest Z]. rewrite <- app_assoc in Z.
        apply app_inv_head in Z. cbn in Z. congruence.
  - assert (N : ~ begins (flabels frs) v).
    { intros [rest ->]. apply X. now rewrite firstn_app, Nat.sub_diag, firstn_all, app_nil_r. }
    rewrite (fill_elsewhere frs (T f es) (T f (edge_set es c t0)) v N). split; [|tauto].
    intros H. split; [exact H|]. intros [rest ->]. apply N. exists (c :: rest). now rewrite <- app_assoc.
Qed.

(** ** The invariant: as in BuildProofs, but the nodes that have been dealt with
    need not all be entries of the map of minimized nodes. *)
Record ginv (h0 h : heap) (root : ptr) (w : work) (frs : list frame) (t0 : tree) (dn : list ptr) : Prop := {
  g_frames : frames h root (w_unchecked w) frs;
  g_top : unf h (top root (w_unchecked w)) t0;
  g_ent : forall e, In e (w_minimized w) -> In (e_ptr e) dn /\ e_ptr e <> null /\
    hget h (e_ptr e) = Some (e_key e) /\ exists t, nunf h (e_key e) t /\ e_hash e = thash t;
  g_closed : closed h (fun p => In p dn);
  g_done : forall p, In p dn -> exists t, unf h p t;
  g_nodup : NoDup (root :: targets (w_unchecked w));
  g_disj : forall p, In p (root :: targets (w_unchecked w)) -> ~ In p dn;
  g_edges : forall p, In p (root :: targets (w_unchecked w)) ->
    exists n, hget h p = Some n /\ esorted (nedges n) /\ forall c q, In (c, q) (nedges n) -> In q dn;
  g_float : NoDup (root :: w_floating w);
  g_dfloat : incl dn (w_floating w);
  g_tfloat : incl (targets (w_unchecked w)) (w_floating w);
  g_base : forall p, ~ In p (root :: w_floating w) -> hget h p = hget h0 p;
  g_own : forall p, In p (root :: w_floating w) -> p <> null /\ allocated h p /\ hget h0 p = None;
}.

Lemma inv_ginv B h0 h root w frs t0 : inv B h0 h root w frs t0 -> ginv h0 h root w frs t0 (mptrs (w_minimized w)).
Proof.
  intros I. pose proof (iv_min _ _ _ _ _ _ _ I) as M. constructor; try apply I.
  - intros e J. destruct (mi_ent _ _ _ M e J) as (N & G & t & U & H & _).
    split; [apply in_map; auto|]. split; [exact N|]. split; [exact G|]. exists t. auto.
  - intros p J. apply in_map_iff in J. destruct J as (e & <- & J).
    destruct (mi_ent _ _ _ M e J) as (N & G & t & U & H & _). exists t. eapply unf_intro; eauto.
Qed.

Section Frame.
  Variables (h h' : heap) (dn : list ptr).
  Hypothesis C : closed h (fun p => In p dn).
  Hypothesis E : forall p, In p dn -> hget h' p = hget h p.

  Lemma keep_unfs es ts : (forall c q, In (c, q) es -> In q dn) -> unfs h es ts -> unfs h' es ts.
  Proof. intros. eapply unfs_frame with (P := fun p => In p dn); eauto. Qed.

  Lemma keep_unf p t : In p dn -> unf h p t -> unf h' p t.
  Proof. intros. eapply unf_frame with (P := fun p => In p dn); eauto. Qed.

  Lemma keep_closed : closed h' (fun p => In p dn).
  Proof. intros p n c q I G J. rewrite E in G by auto. eapply C; eauto. Qed.

  Lemma keep_nunf p n t : In p dn -> hget h p = Some n -> nunf h n t -> nunf h' n t.
  Proof.
    intros I G (S & U & F). split; [exact S|]. split; [|exact F]. apply keep_unfs; [|exact U].
    intros c q J. eapply C; eauto.
  Qed.

  Lemma keep_frames root un frs : frames h root un frs ->
    (forall tr, In tr un -> hget h' (t_source tr) = hget h (t_source tr)) ->
    (forall tr n, In tr un -> hget h (t_source tr) = Some n -> forall c q, In (c, q) (nedges n) -> In q dn) ->
    frames h' root un frs.
  Proof.
    intros F. induction F; intros Es Hm; [constructor|]. constructor; auto.
    - rewrite <- H. apply (Es (Trans c (top root un) t)). left; auto.
    - eapply keep_unfs; eauto. eapply (Hm (Trans c (top root un) t)); eauto. left; auto.
    - apply IHF.
      + intros. apply Es. right; auto.
      + intros tr m' I. apply Hm. right; auto.
  Qed.
End Frame.

Lemma done_unfs h dn es : (forall p, In p dn -> exists t, unf h p t) ->
  (forall c q, In (c, q) es -> In q dn) -> exists ts, unfs h es ts.
Proof.
  intros D. induction es as [|[c q] es IH]; intros H; [exists []; constructor|].
  destruct IH as (ts & U); [intros; eapply H; right; eauto|].
  destruct (D q) as (t & Ut); [eapply H; left; eauto|]. exists ((c, t) :: ts). now constructor.
Qed.

Lemma ginv_null h0 h root w frs t0 dn p : ginv h0 h root w frs t0 dn ->
  In p (root :: targets (w_unchecked w)) -> p <> null /\ In p (root :: w_floating w).
Proof.
  intros I J. assert (In p (root :: w_floating w)) as K.
  { destruct J as [<-|J]; [left; auto|right]. apply (g_tfloat _ _ _ _ _ _ _ I); auto. }
  split; auto. eapply (g_own _ _ _ _ _ _ _ I); auto.
Qed.

(** A transition that is popped and forgotten. *)
Lemma popped_ok h0 h root c s t un m fl frs t0 dn :
  ginv h0 h root (Work (Trans c s t :: un) m fl) frs t0 dn ->
  exists frs' f es, frs = (f, es, c) :: frs' /\ edge_get es c = None /\ flabels frs' = labels un /\
    ginv h0 h root (Work un m fl) frs' (T f es) dn.
Proof.
  intros I. pose proof (g_frames _ _ _ _ _ _ _ I) as F. cbn [w_unchecked] in F.
  inversion F as [|c' t' un' frs' n es Gs Us Lt F']; subst.
  exists frs', (nfin n), es. split; [reflexivity|]. split.
  { pose proof (unfs_get _ _ _ c Us) as X. destruct (edge_get (nedges n) c) eqn:Ge; [|exact X].
    apply edge_get_In in Ge. apply Lt in Ge. lia. }
  split; [exact (frames_labels _ _ _ _ F')|].
  set (s := top root un) in *.
  assert (Js : In s (root :: targets (Trans c s t :: un))).
  { pose proof (top_In root un) as X. cbn in *. fold s in X. tauto. }
  destruct (g_edges _ _ _ _ _ _ _ I s Js) as (n2 & Gs2 & Ss & Es).
  rewrite Gs in Gs2. injection Gs2 as <-.
  constructor; cbn [w_unchecked w_minimized w_floating]; try apply I; auto.
  - fold s. eapply unf_intro; [eapply ginv_null; eauto|exact Gs|]. repeat split; auto.
  - pose proof (g_nodup _ _ _ _ _ _ _ I) as ND. cbn in ND. inversion ND as [|? ? N1 N2]; subst.
    inversion N2; subst. constructor; auto. intros X. apply N1. right; auto.
  - intros p J. apply (g_disj _ _ _ _ _ _ _ I). cbn in *. tauto.
  - intros p J. apply (g_edges _ _ _ _ _ _ _ I). cbn in *. tauto.
  - intros p J. apply (g_tfloat _ _ _ _ _ _ _ I). cbn in *. tauto.
Qed.

(** Linking the source of the popped transition to a node with the right tree. *)
Lemma link_ok h0 h root c s t un m fl frs t0 dn q dn' m' :
  ginv h0 h root (Work (Trans c s t :: un) m fl) frs t0 dn ->
  (q = t /\ dn' = t :: dn \/ In q dn /\ unf h q t0 /\ dn' = dn) ->
  (m' = m \/ In t dn' /\ exists nt, hget h t = Some nt /\ m' = m ++ [Entry (thash t0) nt t]) ->
  exists n frs' es,
    let h' := hset h s (Node (nfin n) (edge_set (nedges n) c q)) in
    s <> null /\ hget h s = Some n /\ edge_get (nedges n) c = None /\
    frs = (nfin n, es, c) :: frs' /\
    ginv h0 h' root (Work un m' fl) frs' (T (nfin n) (edge_set es c t0)) dn'.
Proof.
  intros I Hq Hm. pose proof (g_frames _ _ _ _ _ _ _ I) as F. cbn [w_unchecked] in F.
  inversion F as [|c' t' un' frs' n es Gs Us Lt F']; subst. clear F.
  exists n, frs', es. cbv zeta. set (s := top root un) in *.
  assert (Js : In s (root :: targets (Trans c s t :: un))).
  { pose proof (top_In root un) as X. cbn in *. fold s in X. tauto. }
  destruct (ginv_null _ _ _ _ _ _ _ _ I Js) as [NNs Fs].
  pose proof (g_disj _ _ _ _ _ _ _ I s Js) as Ds.
  destruct (g_edges _ _ _ _ _ _ _ I s Js) as (n2 & Gs2 & Ss & Es). rewrite Gs in Gs2. injection Gs2 as <-.
  assert (Jt : In t (root :: targets (Trans c s t :: un))) by (cbn; auto).
  destruct (ginv_null _ _ _ _ _ _ _ _ I Jt) as [NNt Ft].
  pose proof (g_disj _ _ _ _ _ _ _ I t Jt) as Dt.
  destruct (g_edges _ _ _ _ _ _ _ I t Jt) as (nt & Gt & St & Et).
  assert (Nts : t <> s).
  { pose proof (g_nodup _ _ _ _ _ _ _ I) as ND. cbn in ND. inversion ND as [|? ? N1 N2]; subst.
    inversion N2; subst. intros E. rewrite E in *. pose proof (top_In root un) as Y. fold s in Y.
    destruct Y as [Y|Y]; [apply N1; left; congruence | auto]. }
  assert (Tun : ~ In t (root :: targets un)).
  { pose proof (g_nodup _ _ _ _ _ _ _ I) as ND. cbn in ND. inversion ND as [|? ? N1 N2]; subst.
    inversion N2; subst. intros [X|X]; [apply N1; left; auto|auto]. }
  assert (Gc : edge_get (nedges n) c = None).
  { apply edge_get_None. intros x J. apply Lt in J. lia. }
  split; [exact NNs|]. split; [exact Gs|]. split; [exact Gc|]. split; [reflexivity|].
  set (h' := hset h s (Node (nfin n) (edge_set (nedges n) c q))).
  assert (E : forall r, r <> s -> hget h' r = hget h r) by (intros; apply hget_hset_other; auto).
  assert (Ed : forall r, In r dn -> hget h' r = hget h r) by (intros r J; apply E; intros ->; auto).
  pose proof (g_closed _ _ _ _ _ _ _ I) as Cl.
  pose proof (g_top _ _ _ _ _ _ _ I) as Ut. cbn [w_unchecked top t_target] in Ut.
  destruct (unf_inv _ _ _ Ut) as (nt' & _ & Gt' & Nt). rewrite Gt in Gt'. injection Gt' as <-.
  assert (Sub : forall r, In r dn -> In r dn') by (destruct Hq as [[_ ->]|(_ & _ & ->)]; auto using in_cons).
  assert (Sup : forall r, In r dn' -> In r dn \/ r = t).
  { destruct Hq as [[_ ->]|(_ & _ & ->)]; [|auto]. intros r [<-|J]; auto. }
  assert (Jq : In q dn') by (destruct Hq as [[-> ->]|(J & _ & ->)]; [left|]; auto).
  assert (Nt' : nunf h' nt t0).
  { destruct Nt as (A1 & A2 & A3). split; [exact A1|]. split; [|exact A3]. eapply keep_unfs; eauto. }
  assert (Ut' : unf h' t t0) by (eapply unf_intro; [exact NNt|rewrite E by auto; exact Gt|exact Nt']).
  assert (Uq : unf h' q t0).
  { destruct Hq as [[-> _]|(J & U & _)]; [exact Ut'|]. eapply keep_unf; eauto. }
  constructor; cbn [w_unchecked w_minimized w_floating].
  - eapply keep_frames; eauto.
    + intros tr J. apply E. pose proof (chain_sources _ _ _ _ F' _ J) as X.
      pose proof (g_nodup _ _ _ _ _ _ _ I) as ND. cbn in ND.
      intros Y. rewrite Y in X. unfold s in X, Y. destruct un as [|x un2]; [destruct J|].
      cbn in X, ND. inversion ND as [|? ? N1 N2]; subst. inversion N2 as [|? ? N3 N4]; subst.
      inversion N4; subst. cbn in N1. destruct X as [X|X]; [apply N1; auto | auto].
    + intros tr n3 J G3. pose proof (chain_sources _ _ _ _ F' _ J) as X.
      assert (In (t_source tr) (root :: targets (Trans c s t :: un))) as Y.
      { destruct un; [destruct J|]. cbn in *. tauto. }
      destruct (g_edges _ _ _ _ _ _ _ I _ Y) as (n4 & G4 & _ & X4).
      assert (n4 = n3) by congruence. subst; auto.
  - change (top root un) with s. eapply unf_intro; [auto | apply hget_hset_same |].
    split; [|split]; cbn; auto.
    + apply edge_set_sorted; auto.
    + apply unfs_set; auto. eapply keep_unfs; eauto.
  - assert (Old : forall e, In e m -> In (e_ptr e) dn' /\ e_ptr e <> null /\ hget h' (e_ptr e) = Some (e_key e) /\
      exists t, nunf h' (e_key e) t /\ e_hash e = thash t).
    { intros e J. destruct (g_ent _ _ _ _ _ _ _ I e J) as (D & N & G & te & U & He).
      split; [auto|]. split; [exact N|]. split; [rewrite Ed by auto; exact G|]. exists te. split; [|exact He].
      eapply keep_nunf; eauto. }
    destruct Hm as [->|(Jt' & nt' & Gt' & ->)]; [exact Old|].
    rewrite Gt in Gt'. injection Gt' as <-.
    intros e J. apply in_app_iff in J. destruct J as [J|[<-|[]]]; [exact (Old e J)|]. cbn.
    split; [exact Jt'|]. split; [exact NNt|]. split; [rewrite E by auto; exact Gt|]. exists t0. auto.
  - intros p n3 d r J G K. apply Sup in J. apply Sub. destruct J as [J| ->].
    + rewrite Ed in G by auto. eapply Cl; eauto.
    + rewrite E in G by auto. rewrite Gt in G. injection G as <-. eauto.
  - intros p J. apply Sup in J. destruct J as [J| ->]; [|eauto].
    destruct (g_done _ _ _ _ _ _ _ I p J) as (tp & Up). exists tp. eapply keep_unf; eauto.
  - pose proof (g_nodup _ _ _ _ _ _ _ I) as ND. cbn in ND. inversion ND as [|? ? N1 N2]; subst.
    inversion N2; subst. constructor; auto. intros X. apply N1. right; auto.
  - intros r J K. apply Sup in K. destruct K as [K| ->]; [|auto].
    eapply (g_disj _ _ _ _ _ _ _ I r); [cbn in *; tauto|exact K].
  - intros r J. destruct (N.eq_dec r s) as [->|Nr].
    + exists (Node (nfin n) (edge_set (nedges n) c q)). split; [apply hget_hset_same|].
      cbn. split; [apply edge_set_sorted; auto|].
      intros d r K. apply edge_set_In in K. destruct K as [[-> ->]|K]; eauto.
    + assert (J' : In r (root :: targets (Trans c s t :: un))) by (cbn in *; tauto).
      destruct (g_edges _ _ _ _ _ _ _ I r J') as (n3 & G3 & S3 & E3).
      exists n3. rewrite E by auto. split; auto. split; auto. eauto.
  - apply I.
  - intros r K. apply Sup in K. destruct K as [K| ->].
    + apply (g_dfloat _ _ _ _ _ _ _ I); auto.
    + apply (g_tfloat _ _ _ _ _ _ _ I). cbn. auto.
  - intros r K. apply (g_tfloat _ _ _ _ _ _ _ I). cbn. auto.
  - intros r K. rewrite E; [apply (g_base _ _ _ _ _ _ _ I); auto|]. intros ->. auto.
  - intros r K. destruct (g_own _ _ _ _ _ _ _ I r K) as (? & Al & ?). split; auto. split; auto.
    unfold allocated in *. unfold h'. rewrite hget_hset. destruct (N.eqb r s); [discriminate|auto].
Qed.

(** ** Heights *)
Lemma edge_set_height es f c t t' : height t <= height t' ->
  height (T f (edge_set es c t)) <= height (T f (edge_set es c t')).
Proof.
  intros L. induction es as [|[d q] es IH]; cbn [edge_set].
  - cbn. lia.
  - destruct (ceqb c d); [|destruct (Z.ltb (schar c) (schar d))]; cbn in *; lia.
Qed.

Lemma fill_height frs : forall t t', height t <= height t' -> height (fill frs t) <= height (fill frs t').
Proof.
  induction frs as [|[[f es] c] frs IH]; intros t t' L; [exact L|]. cbn. apply IH. now apply edge_set_height.
Qed.

Lemma begins_refl v : begins v v.
Proof. exists []. now rewrite app_nil_r. Qed.
Lemma begins_trans u v x : begins u v -> begins v x -> begins u x.
Proof. intros [r ->] [r' ->]. exists (r ++ r'). now rewrite app_assoc. Qed.
Lemma begins_nil v : begins [] v.
Proof. now exists v. Qed.

Lemma labels_cons tr un : labels (tr :: un) = labels un ++ [t_label tr].
Proof. reflexivity. Qed.

(** ** minimize *)
Definition gone (lost : list str) (v : str) : Prop := exists p, In p lost /\ begins p v.

Lemma gone_nil v : ~ gone [] v.
Proof. intros (p & [] & _). Qed.

Record after (h0 h : heap) (root : ptr) (w : work) (frs : list frame) (t0 : tree) (dn : list ptr)
  (B : nat) (x : str) (L : str -> Prop) : Prop := {
  a_inv : ginv h0 h root w frs t0 dn;
  a_height : height (fill frs t0) <= B;
  a_labels : begins (labels (w_unchecked w)) x;
  a_words : forall v, tin (fill frs t0) v = true <-> L v;
}.

Lemma after_words h0 h root w frs t0 dn B x (L L' : str -> Prop) :
  (forall v, L v <-> L' v) -> after h0 h root w frs t0 dn B x L -> after h0 h root w frs t0 dn B x L'.
Proof. intros E [A1 A2 A3 A4]. constructor; auto. intros v. now rewrite A4. Qed.

Lemma popped_after h0 h root c s t un m fl frs t0 dn B x L :
  after h0 h root (Work (Trans c s t :: un) m fl) frs t0 dn B x L ->
  exists frs' t0', after h0 h root (Work un m fl) frs' t0' dn B x
    (fun v => L v /\ ~ gone [labels un ++ [c]] v).
Proof.
  intros [I H La Wo]. destruct (popped_ok _ _ _ _ _ _ _ _ _ _ _ _ I) as (frs' & f & es & -> & G & Fl & I').
  exists frs', (T f es). constructor; [exact I'| | |]; cbn [w_unchecked] in *.
  - eapply Nat.le_trans; [|exact H]. cbn. apply fill_height. rewrite height_set_new by exact G. lia.
  - rewrite labels_cons in La. eapply begins_trans; [|exact La]. eexists. reflexivity.
  - intros v. rewrite (fill_without frs' f es c t0 v G). rewrite <- (Wo v). cbn [fill]. rewrite Fl.
    assert (E : gone [labels un ++ [c]] v <-> begins (labels un ++ [c]) v).
    { split; [intros (p & [<-|[]] & J); exact J|]. intros J. exists (labels un ++ [c]). split; [now left|exact J]. }
    rewrite E. reflexivity.
Qed.

Lemma try_add_edge_ok b h p n c q : p <> null -> hget h p = Some n -> edge_get (nedges n) c = None ->
  try_add_edge b h p c q =
    Ok (match spend b with
        | None => (b, h, false)
        | Some b1 => (b1, hset h p (Node (nfin n) (edge_set (nedges n) c q)), true)
        end).
Proof.
  intros N G E. unfold try_add_edge, transition. rewrite (read_ok _ _ _ N G). cbn [rbind]. rewrite E. cbn.
  destruct (spend b); [|reflexivity]. now rewrite (read_ok _ _ _ N G).
Qed.

Lemma try_min_ok : forall k b h0 h root w frs t0 dn B x L, after h0 h root w frs t0 dn B x L ->
  k <= length (w_unchecked w) ->
  exists b' h' w' ok frs' t0' dn' lost,
    (forall fuel, B <= fuel -> try_minimize_loop k fuel b h w = Ok (b', h', w', ok)) /\
    after h0 h' root w' frs' t0' dn' B x (fun v => L v /\ ~ gone lost v) /\
    (forall p, In p lost -> p <> [] /\ begins p x) /\
    (ok = true -> lost = [] /\ length (w_unchecked w') = length (w_unchecked w) - k) /\
    (b = None -> ok = true /\ b' = None).
Proof.
  induction k as [|k IH]; intros b h0 h root w frs t0 dn B x L A Hk.
  - exists b, h, w, true, frs, t0, dn, []. split; [reflexivity|]. split.
    + eapply after_words; [|exact A]. intros v. split; [intros X; split; [exact X|apply gone_nil]|tauto].
    + split; [intros p []|]. split; [intros _; split; [reflexivity|lia]|auto].
  - destruct w as [[|[c s t] un] m fl]; cbn [w_unchecked length] in Hk; [lia|].
    assert (Dead : forall p, In p [labels un ++ [c]] -> p <> [] /\ begins p x).
    { intros p [<-|[]]. split; [destruct (labels un); discriminate|]. apply (a_labels _ _ _ _ _ _ _ _ _ _ A). }
    destruct (popped_after _ _ _ _ _ _ _ _ _ _ _ _ _ _ _ A) as (frp & tp & Ap).
    cbn [try_minimize_loop w_unchecked w_minimized w_floating].
    destruct (spend b) as [b1|] eqn:Eb.
    2: { exists b, h, (Work un m fl), false, frp, tp, dn, [labels un ++ [c]].
         split; [reflexivity|]. split; [exact Ap|]. split; [exact Dead|]. split; [discriminate|].
         intros X. now apply spend_fails in Eb. }
    pose proof (a_inv _ _ _ _ _ _ _ _ _ _ A) as I.
    pose proof (g_top _ _ _ _ _ _ _ I) as Ut. cbn [w_unchecked top t_target] in Ut.
    destruct (unf_inv _ _ _ Ut) as (nt & NNt & Gt & Nt).
    assert (Ht : height t0 <= B).
    { pose proof (height_fill frs t0). pose proof (a_height _ _ _ _ _ _ _ _ _ _ A). lia. }
    assert (Ment : forall e, In e m -> exists te, nunf h (e_key e) te /\ e_hash e = thash te /\ e_ptr e <> null).
    { intros e J. destruct (g_ent _ _ _ _ _ _ _ I e J) as (_ & N & _ & te & U & He). eauto. }
    destruct (map_find_ok B h nt t0 m Nt Ht Ment) as (p & Ef & D).
    assert (Emn : forall fuel, B <= fuel -> minimized_node fuel h m t = Ok p).
    { intros fuel F. unfold minimized_node. rewrite (read_ok _ _ _ NNt Gt). cbn [rbind].
      rewrite (node_hash_ok fuel h nt t0 Nt) by lia. cbn [rbind]. auto. }
    assert (Step : forall b h' w' frs' t0' dn', 
      after h0 h' root w' frs' t0' dn' B x L -> w_unchecked w' = un ->
      exists b' h'' w'' ok frs'' t0'' dn'' lost,
        (forall fuel, B <= fuel -> try_minimize_loop k fuel b h' w' = Ok (b', h'', w'', ok)) /\
        after h0 h'' root w'' frs'' t0'' dn'' B x (fun v => L v /\ ~ gone lost v) /\
        (forall p, In p lost -> p <> [] /\ begins p x) /\
        (ok = true -> lost = [] /\ length (w_unchecked w'') = S (length un) - S k) /\
        (b = None -> ok = true /\ b' = None)).
    { intros b' h' w' frs' t0' dn' A' U.
      destruct (IH b' h0 h' root w' frs' t0' dn' B x L A') as (b2 & h2 & w2 & ok & f2 & t2 & d2 & lo & X1 & X2 & X3 & X4 & X5).
      { rewrite U. lia. }
      exists b2, h2, w2, ok, f2, t2, d2, lo. rewrite U in X4. auto 10. }
    (* linking *)
    assert (Lk : forall q dn' m', (q = t /\ dn' = t :: dn \/ In q dn /\ unf h q t0 /\ dn' = dn) ->
      (m' = m \/ In t dn' /\ exists nt, hget h t = Some nt /\ m' = m ++ [Entry (thash t0) nt t]) ->
      exists n frs' t0', let h' := hset h s (Node (nfin n) (edge_set (nedges n) c q)) in
        s <> null /\ hget h s = Some n /\ edge_get (nedges n) c = None /\
        after h0 h' root (Work un m' fl) frs' t0' dn' B x L).
    { intros q dn' m' Hq Hm. destruct (link_ok _ _ _ _ _ _ _ _ _ _ _ _ q dn' m' I Hq Hm) as (n & frs' & es & N & G & Gc & Ef' & I').
      exists n, frs', (T (nfin n) (edge_set es c t0)). cbv zeta in *. split; [exact N|]. split; [exact G|]. split; [exact Gc|].
      destruct A as [_ A2 A3 A4]. rewrite Ef' in A2, A4. cbn [fill] in A2, A4. constructor; auto.
      cbn [w_unchecked] in *. rewrite labels_cons in A3. eapply begins_trans; [|exact A3]. eexists. reflexivity. }
    destruct D as [[-> Dn]|(e & Je & -> & Ne)].
    + (* a new class *)
      destruct (Lk t (t :: dn) m) as (n & fr1 & t1 & N & G & Gc & A1); [left; auto|left; auto|]. cbv zeta in A1.
      destruct (Lk t (t :: dn) (m ++ [Entry (thash t0) nt t])) as (n' & fr2 & t2 & _ & G' & _ & A2);
        [left; auto|right; split; [now left|eauto]|]. cbv zeta in A2.
      rewrite G in G'. injection G' as <-. set (h' := hset h s (Node (nfin n) (edge_set (nedges n) c t))) in *.
      destruct (spend b1) as [b2|] eqn:Eb1.
      2: { exists b1, h, (Work un m fl), false, frp, tp, dn, [labels un ++ [c]].
           split. { intros fuel F. rewrite Emn by exact F. cbn [rbind]. rewrite N.eqb_refl.
             rewrite (try_add_edge_ok b1 h s n c t N G Gc), Eb1. reflexivity. }
           split; [exact Ap|]. split; [exact Dead|]. split; [discriminate|].
           intros X. apply spend_fails in Eb1. destruct Eb1. now apply spend_goes with b. }
      destruct (spend b2) as [b3|] eqn:Eb2.
      2: { exists b2, h', (Work un m fl), false, fr1, t1, (t :: dn), [].
           split. { intros fuel F. rewrite Emn by exact F. cbn [rbind]. rewrite N.eqb_refl.
             rewrite (try_add_edge_ok b1 h s n c t N G Gc), Eb1. cbn [rbind negb]. now rewrite Eb2. }
           split. { eapply after_words; [|exact A1]. intros v. split; [intros X; split; [exact X|apply gone_nil]|tauto]. }
           split; [intros p []|]. split; [discriminate|].
           intros X. apply spend_fails in Eb2. destruct Eb2. apply spend_goes with b1; [exact Eb1|]. now apply spend_goes with b. }
      assert (Ts : t <> s).
      { pose proof (g_frames _ _ _ _ _ _ _ I) as F. cbn [w_unchecked] in F. inversion F; subst.
        pose proof (g_nodup _ _ _ _ _ _ _ I) as ND. cbn in ND. inversion ND as [|? ? N1 N2]; subst.
        inversion N2; subst. intros X. pose proof (top_In root un) as Y. rewrite <- X in Y.
        destruct Y as [Y|Y]; [apply N1; left; congruence|auto]. }
      assert (Sd : ~ In s dn).
      { pose proof (g_frames _ _ _ _ _ _ _ I) as F. cbn [w_unchecked] in F. inversion F; subst.
        apply (g_disj _ _ _ _ _ _ _ I). pose proof (top_In root un) as Y. cbn in *. tauto. }
      assert (Gt' : hget h' t = Some nt) by (unfold h'; rewrite hget_hset_other; auto).
      pose proof (a_inv _ _ _ _ _ _ _ _ _ _ A1) as I1.
      assert (Ed : forall r, In r dn -> hget h r = hget h' r).
      { intros r J. unfold h'. rewrite hget_hset_other; [reflexivity|]. intros ->. auto. }
      assert (Nt' : nunf h' nt t0).
      { destruct Nt as (S1 & U1 & F1). split; [exact S1|]. split; [|exact F1].
        eapply keep_unfs with (dn := dn); [apply I|intros; symmetry; auto| |exact U1].
        destruct (g_edges _ _ _ _ _ _ _ I t) as (nt2 & Gt2 & _ & Et); [cbn; auto|].
        rewrite Gt in Gt2. injection Gt2 as <-. exact Et. }
      assert (Ea : forall fuel, B <= fuel -> map_assign fuel h' m t = Ok (m ++ [Entry (thash t0) nt t])).
      { intros fuel F. unfold map_assign. rewrite (read_ok _ _ _ NNt Gt'). cbn [rbind].
        rewrite (node_hash_ok fuel h' nt t0 Nt') by lia. cbn [rbind].
        eapply map_replace_new; eauto.
        - intros e J. destruct (g_ent _ _ _ _ _ _ _ I1 e J) as (_ & N' & _ & te & U & He). eauto.
        - intros e J X. apply (Dn e J). destruct (g_ent _ _ _ _ _ _ _ I e J) as (Jd & _ & Ge & te & U & He).
          destruct X as (S1 & U1 & F1). split; [exact S1|]. split; [|exact F1].
          eapply keep_unfs with (dn := dn) (h := h'); [|intros; auto| |exact U1].
          + eapply keep_closed with (h := h); [apply I|]. intros; symmetry; auto.
          + intros d r K. eapply (g_closed _ _ _ _ _ _ _ I); eauto. }
      destruct (Step b3 h' (Work un (m ++ [Entry (thash t0) nt t]) fl) fr2 t2 (t :: dn) A2 eq_refl)
        as (b' & h2 & w2 & ok & fr3 & t3 & dn3 & lo & X1 & X2 & X3 & X4 & X5).
      exists b', h2, w2, ok, fr3, t3, dn3, lo. split.
      { intros fuel F. rewrite Emn by exact F. cbn [rbind]. rewrite N.eqb_refl.
        rewrite (try_add_edge_ok b1 h s n c t N G Gc), Eb1. cbn [rbind negb]. rewrite Eb2.
        fold h'. rewrite Ea by exact F. cbn [rbind]. auto. }
      split; [exact X2|]. split; [exact X3|]. split; [exact X4|].
      intros X. apply X5. apply spend_goes with b2; [exact Eb2|]. apply spend_goes with b1; [exact Eb1|]. now apply spend_goes with b.
    + (* an existing class *)
      destruct (g_ent _ _ _ _ _ _ _ I e Je) as (Jd & NNe & Ge & te & Nte & _).
      assert (te = t0) by (eapply nunf_det; eauto). subst te.
      destruct (Lk (e_ptr e) dn m) as (n & fr1 & t1 & N & G & Gc & A1);
        [right; split; [exact Jd|]; split; [eapply unf_intro; eauto|reflexivity]|left; auto|]. cbv zeta in A1.
      assert (NE : N.eqb (e_ptr e) null = false) by now apply N.eqb_neq.
      destruct (spend b1) as [b2|] eqn:Eb1.
      2: { exists b1, h, (Work un m fl), false, frp, tp, dn, [labels un ++ [c]].
           split. { intros fuel F. rewrite Emn by exact F. cbn [rbind]. rewrite NE.
             rewrite (try_add_edge_ok b1 h s n c (e_ptr e) N G Gc), Eb1. reflexivity. }
           split; [exact Ap|]. split; [exact Dead|]. split; [discriminate|].
           intros X. apply spend_fails in Eb1. destruct Eb1. now apply spend_goes with b. }
      destruct (Step b2 _ _ fr1 t1 dn A1 eq_refl)
        as (b' & h2 & w2 & ok & fr3 & t3 & dn3 & lo & X1 & X2 & X3 & X4 & X5).
      exists b', h2, w2, ok, fr3, t3, dn3, lo. split.
      { intros fuel F. rewrite Emn by exact F. cbn [rbind]. rewrite NE.
        rewrite (try_add_edge_ok b1 h s n c (e_ptr e) N G Gc), Eb1. cbn [rbind negb]. auto. }
      split; [exact X2|]. split; [exact X3|]. split; [exact X4|].
      intros X. apply X5. apply spend_goes with b1; [exact Eb1|]. now apply spend_goes with b.
Qed.

(** ** The dictionary itself *)
Lemma ginv_unf h0 h root w frs t0 dn p : ginv h0 h root w frs t0 dn ->
  In p (root :: targets (w_unchecked w)) -> exists t, unf h p t.
Proof.
  intros I J. destruct (g_edges _ _ _ _ _ _ _ I p J) as (n & G & S & Ed).
  destruct (done_unfs h dn (nedges n) (g_done _ _ _ _ _ _ _ I) Ed) as (ts & U).
  exists (T (nfin n) ts). eapply unf_intro; [eapply ginv_null; eauto|exact G|]. repeat split; auto.
Qed.

Lemma ginv_reach h0 h root w frs t0 dn p : ginv h0 h root w frs t0 dn -> reach h root p -> p = root \/ In p dn.
Proof.
  intros I R. eapply closed_reach with (P := fun p => p = root \/ In p dn); eauto.
  intros q n c r [->|J] G K; right.
  - destruct (g_edges _ _ _ _ _ _ _ I root (or_introl eq_refl)) as (n2 & G2 & _ & Ed).
    assert (n2 = n) by congruence. subst. eauto.
  - eapply (g_closed _ _ _ _ _ _ _ I); eauto.
Qed.

(** What contains() goes by: the words that begin like the pending term are not
    there yet. *)
Lemma after_root h0 h root w frs t0 dn B x L : after h0 h root w frs t0 dn B x L ->
  exists tr cut, unf h root tr /\ (forall v, tin tr v = true <-> L v /\ ~ gone cut v) /\
    (forall p, In p cut -> p <> [] /\ begins p x) /\ (w_unchecked w = [] -> cut = []).
Proof.
  intros [I H La Wo]. pose proof (g_frames _ _ _ _ _ _ _ I) as F. pose proof (g_top _ _ _ _ _ _ _ I) as U.
  destruct (w_unchecked w) as [|tr0 un] eqn:Eu.
  - inversion F; subst. cbn in *. exists t0, []. split; [exact U|]. split.
    { intros v. rewrite Wo. split; [intros X; split; [exact X|apply gone_nil]|tauto]. }
    split; [intros p []|auto].
  - destruct (frames_bottom _ _ _ _ t0 F ltac:(discriminate)) as (n & es & c & sub & rest & G & Us & Gc & Fi & Lb).
    destruct (g_edges _ _ _ _ _ _ _ I _ (or_introl eq_refl)) as (n' & G' & S & _). rewrite G in G'. injection G' as <-.
    exists (T (nfin n) es), [[c]]. split.
    { eapply unf_intro; [eapply ginv_null; [exact I|now left]|exact G|]. repeat split; auto. }
    split; [|split; [|discriminate]].
    + intros v. pose proof (fill_without [] (nfin n) es c sub v Gc) as X. cbn in X. rewrite X, <- Wo, Fi.
      assert (E : gone [[c]] v <-> begins [c] v).
      { split; [intros (p & [<-|[]] & J); exact J|]. intros J. exists [c]. split; [now left|exact J]. }
      rewrite E. reflexivity.
    + intros p [<-|[]]. split; [discriminate|]. eapply begins_trans; [|exact La]. rewrite Lb. now exists rest.
Qed.

(** ** Destruction *)
Lemma after_destroy h0 h b w frs t0 dn : b_work b = Some w -> ginv h0 h (d_root (b_dawg b)) w frs t0 dn ->
  exists enough h', (forall fuel, enough <= fuel -> destroy fuel h b = Ok h') /\ same_heap h' h0.
Proof.
  intros Hw I. set (root := d_root (b_dawg b)) in *.
  destruct (ginv_unf _ _ _ _ _ _ _ root I (or_introl eq_refl)) as (tr & U).
  assert (G : forall p, reach h root p -> In p (root :: w_floating w)).
  { intros p R. destruct (ginv_reach _ _ _ _ _ _ _ _ I R) as [->|J]; [left; auto|].
    right. apply (g_dfloat _ _ _ _ _ _ _ I); auto. }
  destruct (all_nodes_all h (b_dawg b) tr U) as (nodes & E & ND & In0). fold root in In0.
  set (fl' := filter (fun p => negb (set_mem p nodes)) (w_floating w)).
  assert (If : forall p, In p fl' <-> In p (w_floating w) /\ ~ reach h root p).
  { intros p. unfold fl'. rewrite filter_In, <- In0. rewrite negb_true_iff, <- not_true_iff_false, set_mem_In. tauto. }
  destruct (delete_all_ok fl' h) as (h1 & Ed & D1 & D2).
  { apply NoDup_filter. pose proof (g_float _ _ _ _ _ _ _ I) as ND'. inversion ND'; auto. }
  { intros p J. apply If in J. destruct J as [J _].
    destruct (g_own _ _ _ _ _ _ _ I p (or_intror J)) as (? & ? & _). auto. }
  assert (K : forall p, reach h root p -> hget h1 p = hget h p).
  { intros p R. apply D2. rewrite If. tauto. }
  assert (U1 : unf h1 root tr).
  { eapply unf_frame with (P := reach h root); eauto using reach_closed, reach_refl. }
  assert (Re : forall p, reach h1 root p <-> reach h root p) by (intros p; apply reach_frame; auto).
  destruct (destroy_dawg_all h1 (b_dawg b) tr U1) as (h2 & E2 & X1 & X2). fold root in X1, X2.
  exists (tsize tr + 2), h2. split.
  - intros fuel Hf. unfold destroy, clean_up. rewrite Hw, E by auto. cbn [rbind]. fold fl'. rewrite Ed. cbn [rbind b_dawg].
    apply E2. exact Hf.
  - intros p. destruct (in_dec N.eq_dec p nodes) as [J|J]; rewrite In0 in J.
    + rewrite X1 by (apply Re; exact J). symmetry. apply (g_own _ _ _ _ _ _ _ I p). auto.
    + rewrite X2 by (rewrite Re; exact J). destruct (in_dec N.eq_dec p (w_floating w)) as [Jf|Jf].
      * rewrite D1 by (apply If; auto). symmetry. apply (g_own _ _ _ _ _ _ _ I p (or_intror Jf)).
      * rewrite D2 by (rewrite If; tauto). apply (g_base _ _ _ _ _ _ _ I).
        intros [X|X]; [|auto]. apply J. rewrite <- X. apply reach_refl.
Qed.

(** ** A node that nobody points to *)
Lemma inv_new B h0 h root un m fl frs t0 q nd h0' fl' :
  inv B h0 h root (Work un m fl) frs t0 -> hget h q = None ->
  NoDup (root :: fl') -> incl fl fl' ->
  (forall p, ~ In p (root :: fl') -> hget (hset h q nd) p = hget h0' p) ->
  (forall p, In p (root :: fl') -> p <> null /\ allocated (hset h q nd) p /\ hget h0' p = None) ->
  inv B h0' (hset h q nd) root (Work un m fl') frs t0.
Proof.
  intros I Fr ND In0 Ba Ow.
  assert (E : forall p, allocated h p -> hget (hset h q nd) p = hget h p).
  { intros p Al. apply hget_hset_other. intros ->. now apply Al. }
  assert (Em : forall p, In p (mptrs m) -> hget (hset h q nd) p = hget h p).
  { intros p J. apply E. apply (iv_own _ _ _ _ _ _ _ I). right. apply (iv_mfloat _ _ _ _ _ _ _ I). exact J. }
  assert (Eo : forall p, In p (root :: targets un) -> hget (hset h q nd) p = hget h p).
  { intros p J. apply E. apply (iv_own _ _ _ _ _ _ _ I). apply (hget_null_top _ _ _ _ _ _ _ _ I J). }
  pose proof (iv_min _ _ _ _ _ _ _ I) as M. cbn [w_minimized] in M.
  pose proof (iv_frames _ _ _ _ _ _ _ I) as F. cbn [w_unchecked] in F.
  destruct (unf_inv _ _ _ (iv_top _ _ _ _ _ _ _ I)) as (n & NN & G & S & U & Fi). cbn [w_unchecked] in NN, G.
  destruct (iv_edges _ _ _ _ _ _ _ I (top root un) (top_In _ _)) as (n2 & G2 & _ & Et).
  rewrite G in G2. injection G2 as <-.
  constructor; cbn [w_unchecked w_minimized w_floating]; auto.
  - eapply frames_frame; eauto.
    + intros tr J. apply Eo. pose proof (chain_sources _ _ _ _ F _ J) as X. destruct un; cbn in *; tauto.
    + intros tr n3 J G3. pose proof (chain_sources _ _ _ _ F _ J) as X.
      assert (In (t_source tr) (root :: targets un)) as Y by (destruct un; cbn in *; tauto).
      destruct (iv_edges _ _ _ _ _ _ _ I _ Y) as (n4 & G4 & _ & Ed). assert (n4 = n3) by congruence. subst; auto.
  - eapply unf_intro; [exact NN|rewrite Eo by apply top_In; exact G|]. split; [exact S|]. split; [|exact Fi].
    eapply minv_unfs with (m := m); eauto.
  - eapply minv_frame; eauto.
  - apply (iv_nodup _ _ _ _ _ _ _ I).
  - apply (iv_disj _ _ _ _ _ _ _ I).
  - intros p J. rewrite Eo by exact J. apply (iv_edges _ _ _ _ _ _ _ I p J).
  - intros p J. apply In0. apply (iv_mfloat _ _ _ _ _ _ _ I). exact J.
  - intros p J. apply In0. apply (iv_tfloat _ _ _ _ _ _ _ I). exact J.
Qed.

Lemma inv_leak B h0 h root w frs t0 q nd : inv B h0 h root w frs t0 -> hget h q = None ->
  hget h0 q = None /\ inv B (hset h0 q nd) (hset h q nd) root w frs t0.
Proof.
  intros I Fr. destruct w as [un m fl].
  assert (Nq : forall p, In p (root :: fl) -> p <> q).
  { intros p J ->. destruct (iv_own _ _ _ _ _ _ _ I q J) as (_ & Al & _). now apply Al. }
  split; [rewrite <- (iv_base _ _ _ _ _ _ _ I); [exact Fr|]; intros J; now apply Nq in J|].
  eapply inv_new; [exact I|exact Fr|apply (iv_float _ _ _ _ _ _ _ I)|apply incl_refl| |].
  - intros p J. rewrite !hget_hset. destruct (N.eqb p q); [reflexivity|]. now apply (iv_base _ _ _ _ _ _ _ I).
  - intros p J. pose proof (Nq p J) as N. destruct (iv_own _ _ _ _ _ _ _ I p J) as (A1 & A2 & A3).
    unfold allocated in *. rewrite !hget_hset_other by exact N. auto.
Qed.

Lemma inv_spare B h0 h root w frs t0 q nd : inv B h0 h root w frs t0 -> q <> null -> hget h q = None ->
  inv B h0 (hset h q nd) root (Work (w_unchecked w) (w_minimized w) (set_insert q (w_floating w))) frs t0.
Proof.
  intros I NN Fr. destruct w as [un m fl]. cbn [w_unchecked w_minimized w_floating].
  assert (Nq : forall p, In p (root :: fl) -> p <> q).
  { intros p J ->. destruct (iv_own _ _ _ _ _ _ _ I q J) as (_ & Al & _). now apply Al. }
  eapply inv_new; [exact I|exact Fr| | | |].
  - pose proof (iv_float _ _ _ _ _ _ _ I) as ND. inversion ND as [|? ? N1 N2]; subst. constructor.
    + rewrite set_insert_In. intros [X|X]; [|now apply N1]. apply (Nq root); [now left|exact X].
    + now apply set_insert_NoDup.
  - intros p J. apply set_insert_In. now right.
  - intros p J. cbn in J. rewrite set_insert_In in J. rewrite hget_hset_other by tauto.
    apply (iv_base _ _ _ _ _ _ _ I). cbn. tauto.
  - intros p J. cbn in J. rewrite set_insert_In in J. destruct (N.eq_dec p q) as [->|N].
    + split; [exact NN|]. split; [unfold allocated; rewrite hget_hset_same; discriminate|].
      rewrite <- (iv_base _ _ _ _ _ _ _ I); [exact Fr|]. intros X. now apply Nq in X.
    + unfold allocated. rewrite hget_hset_other by exact N. apply (iv_own _ _ _ _ _ _ _ I). cbn. tauto.
Qed.

(** ** Appending nodes *)
Definition leaked (h0 h0' : heap) : Prop :=
  h0' = h0 \/ exists q nd, hget h0 q = None /\ h0' = hset h0 q nd.

Lemma leaf_words f es c v : edge_get es c = None -> tin (T f (edge_set es c leaf)) v = tin (T f es) v.
Proof.
  intros G. destruct v as [|d v]; [reflexivity|]. cbn. rewrite edge_get_set.
  destruct (ceqb_spec d c) as [[-> E]|[N E]]; rewrite E; [|reflexivity]. rewrite G. apply tin_leaf.
Qed.

Lemma push_fail alloc : allocator alloc -> forall rest b B h0 h root w frs t0 b' h' w',
  inv B h0 h root w frs t0 ->
  (forall c rest', rest = c :: rest' ->
     forall n d q, hget h (top root (w_unchecked w)) = Some n -> In (d, q) (nedges n) -> (uchar d < uchar c)%N) ->
  height (fill frs t0) <= B -> length (labels (w_unchecked w) ++ rest) < B ->
  try_push_suffix alloc b h w (top root (w_unchecked w)) rest = (b', h', w', None) ->
  b <> None /\ exists h0' frs' t0', inv B h0' h' root w' frs' t0' /\ leaked h0 h0' /\
    (forall v, tin (fill frs' t0') v = tin (fill frs t0) v) /\
    begins (labels (w_unchecked w')) (labels (w_unchecked w) ++ rest) /\ height (fill frs' t0') <= B.
Proof.
  intros A. induction rest as [|c rest IH]; intros b B h0 h root w frs t0 b' h' w' I Lt Hh Hl E; [discriminate|].
  cbn [try_push_suffix] in E. unfold new_node in E. destruct (A h) as [NN Fr]. set (q := alloc h) in *.
  assert (Here : begins (labels (w_unchecked w)) (labels (w_unchecked w) ++ c :: rest)) by now exists (c :: rest).
  destruct (spend b) as [b1|] eqn:Eb.
  2: { injection E as <- <- <-. split; [now apply spend_fails|]. exists h0, frs, t0.
       split; [exact I|]. split; [now left|]. split; [reflexivity|]. split; [exact Here|exact Hh]. }
  destruct (spend b1) as [b2|] eqn:Eb1.
  2: { injection E as <- <- <-. split; [intros X; apply spend_fails in Eb1; destruct Eb1; now apply spend_goes with b|].
       destruct (inv_leak B h0 h root w frs t0 q (Node false []) I Fr) as [F0 I'].
       exists (hset h0 q (Node false [])), frs, t0. split; [exact I'|]. split; [right; exists q, (Node false []); auto|].
       split; [reflexivity|]. split; [exact Here|exact Hh]. }
  destruct (spend b2) as [b3|] eqn:Eb2.
  2: { injection E as <- <- <-.
       split; [intros X; apply spend_fails in Eb2; destruct Eb2; apply spend_goes with b1; [exact Eb1|]; now apply spend_goes with b|].
       exists h0, frs, t0. split; [now apply inv_spare|]. split; [now left|]. split; [reflexivity|]. split; [exact Here|exact Hh]. }
  pose proof (push_one alloc B h0 h root w frs t0 c A I (Lt c rest eq_refl)) as I1. cbv zeta in I1. fold q in I1.
  destruct (unf_inv _ _ _ (iv_top _ _ _ _ _ _ _ I)) as (n & NNt & Gt & St & Ut & Ft).
  assert (Gc : edge_get (tedges t0) c = None).
  { pose proof (unfs_get _ _ _ c Ut) as X. destruct (edge_get (nedges n) c) eqn:Ge; [|exact X].
    apply edge_get_In in Ge. specialize (Lt c rest eq_refl n c p Gt Ge). lia. }
  set (w1 := Work (Trans c (top root (w_unchecked w)) q :: w_unchecked w) (w_minimized w) (set_insert q (w_floating w))) in *.
  assert (La1 : labels (w_unchecked w1) ++ rest = labels (w_unchecked w) ++ c :: rest).
  { unfold w1. cbn [w_unchecked]. rewrite labels_cons, <- app_assoc. reflexivity. }
  destruct (IH b3 B h0 (hset h q (Node false [])) root w1 ((tfin t0, tedges t0, c) :: frs) leaf b' h' w' I1)
    as (Nb & h0' & frs' & t0' & I' & Lk & Wo & La & Hh').
  - intros c' rest' _ n' d r G J. unfold w1 in G. cbn [top w_unchecked t_target] in G.
    rewrite hget_hset_same in G. injection G as <-. destruct J.
  - cbn [fill]. apply Nat.le_trans with (height (fill frs (tadd t0 [c]))).
    + apply fill_height. cbn [tadd]. apply edge_set_height. rewrite height_leaf. apply height_pos.
    + rewrite <- tadd_fill. apply height_tadd; [exact Hh|].
      rewrite (frames_labels _ _ _ _ (iv_frames _ _ _ _ _ _ _ I)). rewrite app_length in *. cbn in *. lia.
  - rewrite La1. exact Hl.
  - exact E.
  - split.
    { intros X. apply Nb. apply spend_goes with b2; [exact Eb2|]. apply spend_goes with b1; [exact Eb1|]. now apply spend_goes with b. }
    exists h0', frs', t0'. split; [exact I'|]. split; [exact Lk|]. split.
    { intros v. rewrite Wo. cbn [fill]. apply fill_same. intros u. rewrite leaf_words by exact Gc. now destruct t0. }
    split; [rewrite <- La1; exact La|exact Hh'].
Qed.

Lemma push_goes alloc : forall rest b h w s b' h' w' p,
  try_push_suffix alloc b h w s rest = (b', h', w', Some p) -> b = None -> b' = None.
Proof.
  induction rest as [|c rest IH]; intros b h w s b' h' w' p; cbn; [congruence|]. intros E ->. cbn in E. eapply IH; eauto.
Qed.

Lemma inv_after B h0 h root w frs t0 x : inv B h0 h root w frs t0 -> height (fill frs t0) <= B ->
  begins (labels (w_unchecked w)) x ->
  after h0 h root w frs t0 (mptrs (w_minimized w)) B x (fun v => tin (fill frs t0) v = true).
Proof. intros I H La. constructor; [eapply inv_ginv; exact I|exact H|exact La|reflexivity]. Qed.

(** ** add *)
Lemma try_add_ok alloc b B h0 h bd t w frs t0 term : allocator alloc ->
  binv B h0 h bd t w frs t0 -> length term < B -> ~ lex_lt term (b_prev bd) ->
  exists b' h' bd' r, (forall fuel, B <= fuel -> try_add fuel alloc b h bd term = Ok (b', h', bd', r)) /\
    match r with
    | Some a => a = true /\ (exists w' frs' t0', binv B h0 h' bd' (tadd t term) w' frs' t0') /\
        b_prev bd' = term /\ d_root (b_dawg bd') = d_root (b_dawg bd)
    | None => b <> None /\ b_dawg bd' = b_dawg bd /\ b_prev bd' = b_prev bd /\
        exists h0' w' frs' t0' dn x lost reached,
        b_work bd' = Some w' /\ leaked h0 h0' /\ (x = b_prev bd \/ x = term) /\
        after h0' h' (d_root (b_dawg bd)) w' frs' t0' dn B x
          (fun v => (tin t v = true \/ reached = true /\ v = term) /\ ~ gone lost v) /\
        (forall p, In p lost -> p <> [] /\ begins p x)
    end.
Proof.
  intros A BI Lt NL.
  destruct (add_ok alloc B h0 h bd t w frs t0 term A BI Lt NL) as (ha & ba & wa & fra & ta & Ea & BIa & Pa & Ra & Sa).
  destruct BI as [Hw I Ht Hh Hp Hn]. set (root := d_root (b_dawg bd)) in *.
  assert (Es : str_ltb term (b_prev bd) = false).
  { destruct (str_ltb term (b_prev bd)) eqn:Es; [apply str_ltb_lex in Es; tauto|auto]. }
  assert (term = [] \/ term <> []) as [Et|Et] by (destruct term; [auto|right; discriminate]).
  { (* the empty term *)
    assert (T1 : forall fuel, B <= fuel -> try_add fuel alloc b h bd term = Ok (b, ha, ba, Some true)).
    { intros fuel F. specialize (Ea fuel F). rewrite Et in *. rewrite add_empty in Ea by exact Es.
      unfold try_add. rewrite Es. destruct (set_final h (d_root (b_dawg bd)) true); try discriminate. cbn in *. congruence. }
    exists b, ha, ba, (Some true). split; [exact T1|]. split; [reflexivity|]. split; [eauto|auto]. }
  set (i := common_prefix term (b_prev bd)).
  destruct (common_prefix_spec term (b_prev bd) NL) as (L1 & L2 & Fe & D). fold i in L1, L2, Fe, D.
  assert (Lun : length (w_unchecked w) = length (b_prev bd)) by (rewrite <- Hp, labels_length; auto).
  assert (Unf : forall fuel, try_add fuel alloc b h bd term =
    (do (b1, h1, w1, done) <- try_minimize_loop (length (w_unchecked w) - i) fuel b h w;
        if negb done then Ok (b1, h1, Builder (b_dawg bd) (b_prev bd) (Some w1), None)
        else
          let '(b2, h2, w2, r) := try_push_suffix alloc b1 h1 w1 (top root (w_unchecked w1)) (skipn i term) in
          match r with
          | None => Ok (b2, h2, Builder (b_dawg bd) (b_prev bd) (Some w2), None)
          | Some last =>
              do h3 <- set_final h2 last true;
              match spend b2 with
              | None => Ok (b2, h3, Builder (b_dawg bd) (b_prev bd) (Some w2), None)
              | Some b3 => Ok (b3, h3, Builder (Dawg root (wadd (d_size (b_dawg bd)) 1)) term (Some w2), Some true)
              end
          end)).
  { intros fuel. unfold try_add. rewrite Es. destruct term as [|c0 term0]; [congruence|]. rewrite Hw. reflexivity. }
  destruct (try_min_ok (length (w_unchecked w) - i) b h0 h root w frs t0 (mptrs (w_minimized w)) B (b_prev bd)
    (fun v => tin t v = true)) as (b1 & h1 & w1 & ok & fr1 & t1 & dn1 & lo1 & E1 & A1 & Lo1 & Ok1 & No1).
  { rewrite <- Ht. apply inv_after; [exact I|rewrite Ht; exact Hh|]. rewrite Hp. apply begins_refl. }
  { lia. }
  destruct ok.
  2: { exists b1, h1, (Builder (b_dawg bd) (b_prev bd) (Some w1)), None. split.
       { intros fuel F. rewrite Unf, E1 by exact F. reflexivity. }
       split; [intros X; destruct (No1 X); discriminate|]. split; [reflexivity|]. split; [reflexivity|].
       exists h0, w1, fr1, t1, dn1, (b_prev bd), lo1, false. split; [reflexivity|]. split; [now left|]. split; [now left|].
       split; [|exact Lo1]. eapply after_words; [|exact A1]. intros v. cbn.
       split; [tauto|]. intros [[X|[X _]] Y]; [tauto|discriminate]. }
  destruct (Ok1 eq_refl) as [-> Len1].
  destruct (minimize_loop_ok (length (w_unchecked w) - i) B h0 h root w frs t0 I)
    as (h1' & w1' & fm & tm & Em & Im & Fm & Um & Dm); [rewrite Ht; auto|lia|].
  pose proof (try_minimize_same _ _ _ _ _ _ _ _ (E1 B (le_n _))) as X. rewrite (Em B (le_n _)) in X. injection X as -> ->.
  assert (La1 : labels (w_unchecked w1) = firstn i term).
  { rewrite Um, labels_skipn by lia. rewrite Hp, Fe. f_equal. lia. }
  assert (Ltp : forall c rest', skipn i term = c :: rest' ->
     forall n d q, hget h1 (top root (w_unchecked w1)) = Some n -> In (d, q) (nedges n) -> (uchar d < uchar c)%N).
  { intros c rest' Er n d q G J. destruct (length (w_unchecked w) - i) as [|k] eqn:Ek.
    - destruct Dm as [-> ->]. apply Hn in G. rewrite G in J. destruct J.
    - destruct Dm as (tr & n' & Nth & G' & Le). rewrite G in G'. injection G' as <-. specialize (Le _ _ J).
      destruct D as [D|(a & b0 & u' & v' & Sk & Nb & _ & Lab)]; [lia|].
      apply labels_nth in Nth. rewrite Hp in Nth. replace (length (w_unchecked w) - S k) with i in Nth by lia.
      rewrite Nb in Nth. injection Nth as ->. rewrite Sk in Er. injection Er as -> _. lia. }
  destruct (try_push_suffix alloc b1 h1 w1 (top root (w_unchecked w1)) (skipn i term)) as [[[b2 h2] w2] [p|]] eqn:E2.
  2: { destruct (push_fail alloc A (skipn i term) b1 B h0 h1 root w1 fm tm b2 h2 w2 Im Ltp)
         as (Nb & h0' & fr2 & t2 & I2 & Lk & Wo & La2 & H2).
       { rewrite Fm, Ht. exact Hh. } { rewrite La1, firstn_skipn. exact Lt. } { exact E2. }
       exists b2, h2, (Builder (b_dawg bd) (b_prev bd) (Some w2)), None. split.
       { intros fuel F. rewrite Unf, E1 by exact F. cbn [rbind negb]. rewrite E2. reflexivity. }
       split; [intros X; destruct (No1 X); congruence|]. split; [reflexivity|]. split; [reflexivity|].
       exists h0', w2, fr2, t2, (mptrs (w_minimized w2)), term, [], false.
       split; [reflexivity|]. split; [exact Lk|]. split; [now right|].
       split; [|intros p []]. rewrite La1, firstn_skipn in La2. eapply after_words; [|apply (inv_after _ _ _ _ _ _ _ _ I2 H2 La2)].
       intros v. cbn. rewrite Wo, Fm, Ht. split; [intros X; split; [now left|apply gone_nil]|].
       intros [[X|[X _]] _]; [exact X|discriminate]. }
  pose proof (try_push_same _ _ _ _ _ _ _ _ _ _ E2) as E2'.
  assert (Ea' : forall fuel, B <= fuel -> (do h3 <- set_final h2 p true;
     Ok (true, h3, Builder (Dawg root (wadd (d_size (b_dawg bd)) 1)) term (Some w2))) = Ok (true, ha, ba)).
  { intros fuel F. specialize (Ea fuel F). rewrite add_nonempty in Ea by assumption. rewrite Hw in Ea. cbn [deref rbind] in Ea.
    fold i in Ea. unfold minimize in Ea. rewrite Em in Ea by exact F. cbn [rbind] in Ea. fold root in Ea.
    rewrite E2' in Ea. exact Ea. }
  specialize (Ea' B (le_n _)). destruct (set_final h2 p true) as [h3| |] eqn:E3; try discriminate. cbn [rbind] in Ea'.
  injection Ea' as <- <-.
  destruct (spend b2) as [b3|] eqn:Eb.
  - exists b3, h3, (Builder (Dawg root (wadd (d_size (b_dawg bd)) 1)) term (Some w2)), (Some true). split.
    { intros fuel F. rewrite Unf, E1 by exact F. cbn [rbind negb]. rewrite E2, E3. cbn [rbind]. now rewrite Eb. }
    split; [reflexivity|]. split; [eauto|auto].
  - exists b2, h3, (Builder (b_dawg bd) (b_prev bd) (Some w2)), None. split.
    { intros fuel F. rewrite Unf, E1 by exact F. cbn [rbind negb]. rewrite E2, E3. cbn [rbind]. now rewrite Eb. }
    split. { intros X. apply spend_fails in Eb. apply Eb. eapply push_goes; [exact E2|]. now apply No1. }
    split; [reflexivity|]. split; [reflexivity|].
    destruct BIa as [Hwa Iba Hta Hha Hpa Hna]. cbn [b_work b_dawg d_root b_prev] in *. injection Hwa as <-.
    exists h0, w2, fra, ta, (mptrs (w_minimized w2)), term, [], true.
    split; [reflexivity|]. split; [now left|]. split; [now right|]. split; [|intros q []].
    eapply after_words; [|apply (inv_after _ _ _ _ _ _ _ term Iba)].
    + intros v. cbn. rewrite Hta, tin_tadd. split; [intros X; split; [tauto|apply gone_nil]|tauto].
    + rewrite Hta. exact Hha.
    + rewrite Hpa. apply begins_refl.
Qed.

(** ** Adding terms until a call throws *)
Definition thrown (h0 h : heap) (bd : builder) (B : nat) (t : tree) (last failed : str) : Prop :=
  exists h0' w frs t0 dn x lost reached,
    b_work bd = Some w /\ leaked h0 h0' /\ (x = last \/ x = failed) /\
    after h0' h (d_root (b_dawg bd)) w frs t0 dn B x
      (fun v => (tin t v = true \/ reached = true /\ v = failed) /\ ~ gone lost v) /\
    (forall p, In p lost -> p <> [] /\ begins p x).

Lemma try_add_reject fuel alloc b h bd term : lex_lt term (b_prev bd) ->
  try_add fuel alloc b h bd term = Ok (b, h, bd, Some false).
Proof. intros L. unfold try_add. apply str_ltb_lex in L. now rewrite L. Qed.

Lemma add_until_ok alloc : allocator alloc -> forall ts B h0 h bd t w frs t0,
  binv B h0 h bd t w frs t0 -> short B (map fst ts) ->
  exists h' bd' flags failed kept,
    (forall fuel, B <= fuel -> add_until fuel alloc h bd ts = Ok (h', bd', flags, failed)) /\
    greedy (b_prev bd) (firstn (length flags) (map fst ts)) flags kept /\
    match failed with
    | None => length flags = length ts /\ b_prev bd' = last kept (b_prev bd) /\
        exists w' frs' t0', binv B h0 h' bd' (trie_from t kept) w' frs' t0'
    | Some f => (exists b, nth_error ts (length flags) = Some (f, b) /\ b <> None) /\
        thrown h0 h' bd' B (trie_from t kept) (last kept (b_prev bd)) f
    end.
Proof.
  intros A. induction ts as [|[x b] ts IH]; intros B h0 h bd t w frs t0 BI Sh.
  - exists h, bd, [], None, []. split; [reflexivity|]. split; [constructor|]. split; [reflexivity|]. split; [reflexivity|]. eauto.
  - cbn [map fst] in Sh. apply short_cons in Sh. destruct Sh as [Lx Sh]. cbn [add_until].
    destruct (lex_lt_dec x (b_prev bd)) as [L|L].
    + destruct (IH B h0 h bd t w frs t0 BI Sh) as (h' & bd' & flags & failed & kept & E & G & D).
      exists h', bd', (false :: flags), failed, kept. split.
      { intros fuel F. rewrite try_add_reject by exact L. cbn [rbind]. rewrite E by exact F. reflexivity. }
      split; [cbn; now constructor|]. destruct failed; cbn [length nth_error]; [exact D|].
      destruct D as (D1 & D2). auto.
    + destruct (try_add_ok alloc b B h0 h bd t w frs t0 x A BI Lx L) as (b1 & h1 & bd1 & [a|] & E1 & D1).
      * destruct D1 as (-> & (w1 & fr1 & t1 & BI1) & P1 & R1).
        destruct (IH B h0 h1 bd1 _ w1 fr1 t1 BI1 Sh) as (h' & bd' & flags & failed & kept & E & G & D).
        exists h', bd', (true :: flags), failed, (x :: kept). split.
        { intros fuel F. rewrite E1 by exact F. cbn [rbind]. rewrite E by exact F. reflexivity. }
        rewrite P1 in *. rewrite last_cons. split; [cbn; constructor; auto|].
        destruct failed; cbn [length nth_error]; [exact D|]. destruct D as (D1 & D2). auto.
      * destruct D1 as (Nb & Db & Pb & h0' & w1 & fr1 & t1 & dn & y & lost & reached & X1 & X2 & X3 & X4 & X5).
        exists h1, bd1, [], (Some x), []. split.
        { intros fuel F. rewrite E1 by exact F. reflexivity. }
        split; [constructor|]. split; [exists b; auto|]. cbn [trie_from fold_left last].
        exists h0', w1, fr1, t1, dn, y, lost, reached. rewrite Db. auto.
Qed.

(** ** Calls of finish() *)
Lemma finishes_ok : forall bs h0 h bd w frs t0 dn B x L, b_work bd = Some w ->
  after h0 h (d_root (b_dawg bd)) w frs t0 dn B x L ->
  exists h' bd' oks w' frs' t0' dn' lost,
    (forall fuel, B <= fuel -> finishes fuel h bd bs = Ok (h', bd', oks)) /\
    length oks = length bs /\ b_work bd' = Some w' /\ b_dawg bd' = b_dawg bd /\
    after h0 h' (d_root (b_dawg bd)) w' frs' t0' dn' B x (fun v => L v /\ ~ gone lost v) /\
    (forall p, In p lost -> p <> [] /\ begins p x) /\
    (In true oks -> w_unchecked w' = []) /\
    (w_unchecked w = [] \/ hd false oks = true -> lost = []) /\
    (w_unchecked w = [] -> w_unchecked w' = []) /\
    (forall k, nth_error oks k = Some false -> exists b, nth_error bs k = Some b /\ b <> None).
Proof.
  induction bs as [|b bs IH]; intros h0 h bd w frs t0 dn B x L Hw A.
  - exists h, bd, [], w, frs, t0, dn, []. split; [reflexivity|]. split; [reflexivity|]. split; [exact Hw|]. split; [reflexivity|].
    split. { eapply after_words; [|exact A]. intros v. split; [intros X; split; [exact X|apply gone_nil]|tauto]. }
    split; [intros p []|]. split; [intros []|]. split; [auto|]. split; [auto|]. intros [|k]; discriminate.
  - destruct (try_min_ok (length (w_unchecked w) - 0) b h0 h _ w frs t0 dn B x L A) as
      (b1 & h1 & w1 & ok & fr1 & t1 & dn1 & lo1 & E1 & A1 & Lo1 & Ok1 & No1); [lia|].
    destruct (IH h0 h1 (Builder (b_dawg bd) (b_prev bd) (Some w1)) w1 fr1 t1 dn1 B x _ eq_refl A1) as
      (h2 & bd2 & oks & w2 & fr2 & t2 & dn2 & lo2 & E2 & Le & Hw2 & Db & A2 & Lo2 & In2 & Hd2 & Un2 & No2).
    cbn [b_dawg] in Db, A2.
    exists h2, bd2, (ok :: oks), w2, fr2, t2, dn2, (lo1 ++ lo2). split.
    { intros fuel F. cbn [finishes]. unfold try_finish, try_minimize. rewrite Hw. cbn [deref rbind].
      rewrite E1 by exact F. cbn [rbind]. rewrite E2 by exact F. reflexivity. }
    assert (U1 : ok = true -> w_unchecked w1 = []).
    { intros X. destruct (Ok1 X) as [_ Y]. destruct (w_unchecked w1); [reflexivity|cbn in Y; lia]. }
    split; [cbn; now rewrite Le|]. split; [exact Hw2|]. split; [exact Db|]. split.
    { eapply after_words; [|exact A2]. intros v. cbn. split.
      - intros [[X Y] Z]. split; [exact X|]. intros (p & J & K). apply in_app_iff in J. destruct J as [J|J]; [apply Y|apply Z]; now exists p.
      - intros [X Y]. split; [split; [exact X|]|]; intros (p & J & K); apply Y; exists p; rewrite in_app_iff; auto. }
    split. { intros p J. apply in_app_iff in J. destruct J; auto. }
    split. { intros [X|X]; auto. }
    split.
    { intros [X|X].
      - assert (ok = true /\ lo1 = []) as [-> ->].
        { specialize (E1 B (le_n _)). rewrite X in E1. cbn in E1. injection E1 as <- <- <- <-. destruct (Ok1 eq_refl). auto. }
        apply Hd2. left. auto.
      - cbn in X. subst ok. destruct (Ok1 eq_refl) as [-> _]. apply Hd2. left. auto. }
    split. { intros X. apply Un2. specialize (E1 B (le_n _)). rewrite X in E1. cbn in E1. injection E1 as <- <- <- <-. exact X. }
    intros [|k] X; cbn in *; [|apply No2; exact X]. injection X as ->. exists b. split; [reflexivity|].
    intros Y. destruct (No1 Y); discriminate.
Qed.

(** ** Beginnings of one string: the shortest one counts *)
Lemma begins_length u v x : begins u x -> begins v x -> length u <= length v -> begins u v.
Proof.
  intros [r E] [r' E'] L. exists (skipn (length u) v). rewrite E in E'. clear E.
  revert v r r' E' L. induction u as [|a u IH]; intros v r r' E' L; [reflexivity|].
  destruct v as [|b v]; cbn in *; [lia|]. injection E' as -> E'. f_equal. eapply IH; eauto. lia.
Qed.

Lemma shortest x lost : (forall p, In p lost -> p <> [] /\ begins p x) ->
  exists cut, (forall v, gone lost v <-> exists p, cut = Some p /\ begins p v) /\
    (forall p, cut = Some p -> In p lost) /\ (lost = [] -> cut = None).
Proof.
  induction lost as [|p lost IH]; intros H.
  - exists None. split; [|split; [discriminate|auto]]. intros v. split; [intros (p & [] & _)|intros (p & X & _); discriminate].
  - destruct IH as (cut & E & I & _); [intros; apply H; now right|].
    destruct (H p (or_introl eq_refl)) as [Np Bp].
    destruct cut as [q|].
    + destruct (H q (or_intror (I q eq_refl))) as [Nq Bq].
      assert (G : forall v, gone (p :: lost) v <-> begins p v \/ begins q v).
      { intros v. split.
        - intros (y & [<-|J] & K); [now left|]. right. destruct (proj1 (E v)) as (z & Z & Z'); [now exists y|]. congruence.
        - intros [K|K]; [exists p; split; [now left|exact K]|]. destruct (proj2 (E v)) as (z & Z & Z'); [now exists q|].
          exists z. split; [now right|exact Z']. }
      destruct (Nat.le_gt_cases (length p) (length q)) as [L|L].
      * exists (Some p). split; [|split; [intros z Z; injection Z as <-; now left|discriminate]].
        intros v. rewrite G. pose proof (begins_length p q x Bp Bq L) as X. split.
        -- intros [K|K]; exists p; (split; [reflexivity|]); [exact K|]. eapply begins_trans; eauto.
        -- intros (z & Z & K). injection Z as <-. now left.
      * exists (Some q). split; [|split; [intros z Z; injection Z as <-; right; now apply I|discriminate]].
        intros v. rewrite G. pose proof (begins_length q p x Bq Bp (Nat.lt_le_incl _ _ L)) as X. split.
        -- intros [K|K]; exists q; (split; [reflexivity|]); [|exact K]. eapply begins_trans; eauto.
        -- intros (z & Z & K). injection Z as <-. now right.
    + exists (Some p). split; [|split; [intros z Z; injection Z as <-; now left|discriminate]].
      intros v. split.
      * intros (y & [<-|J] & K); [now exists p|]. destruct (proj1 (E v)) as (z & Z & _); [now exists y|discriminate].
      * intros (z & Z & K). injection Z as <-. exists p. split; [now left|exact K].
Qed.

Lemma gone_app a b v : gone (a ++ b) v <-> gone a v \/ gone b v.
Proof.
  split.
  - intros (p & J & K). apply in_app_iff in J. destruct J; [left|right]; now exists p.
  - intros [(p & J & K)|(p & J & K)]; exists p; rewrite in_app_iff; auto.
Qed.

(** ** sorted_dawg *)
Lemma try_nodes_ok h out : forall fuel ps ns b, all_nodes_loop fuel h ps ns = Ok out ->
  exists b' r, (forall fuel', fuel <= fuel' -> try_all_nodes_loop fuel' b h ps ns = Ok (b', r)) /\
    (r = None \/ r = Some out) /\ (b = None -> r = Some out /\ b' = None).
Proof.
  induction fuel as [|fuel IH]; intros ps ns b E; [discriminate|]. cbn in E. destruct ps as [|p ps].
  - injection E as <-. exists b, (Some ns). split; [|auto]. intros [|f] F; [lia|reflexivity].
  - destruct (read h p) as [n| |] eqn:R; try discriminate. cbn [rbind] in E.
    destruct (spend b) as [b1|] eqn:Eb.
    2: { exists b, None. split; [|split; [auto|intros X; now apply spend_fails in Eb]].
         intros [|f] F; [lia|]. cbn. now rewrite Eb. }
    destruct (spend_many (length (nedges n)) b1) as [b2|] eqn:Em.
    2: { exists (Some O), None. split; [|split; [auto|]].
         - intros [|f] F; [lia|]. cbn. rewrite Eb, R. cbn. now rewrite Em.
         - intros X. apply many_fails in Em. destruct Em. now apply spend_goes with b. }
    destruct (IH _ _ b2 E) as (b' & r & E' & D & N). exists b', r. split; [|split; [exact D|]].
    + intros [|f] F; [lia|]. cbn. rewrite Eb, R. cbn. rewrite Em. apply E'. lia.
    + intros X. apply N. apply many_goes with (length (nedges n)) b1; [exact Em|]. now apply spend_goes with b.
Qed.

Lemma try_all_nodes_ok h d t b : unf h (d_root d) t ->
  exists b' r, (forall fuel, tsize t + 2 <= fuel -> try_all_nodes fuel b h d = Ok (b', r)) /\
    (b = None -> r <> None /\ b' = None).
Proof.
  intros U. destruct (all_nodes_all h d t U) as (out & E & _). unfold try_all_nodes.
  destruct (spend b) as [b1|] eqn:Eb.
  - destruct (try_nodes_ok h out (tsize t + 2) [d_root d] [] b1) as (b' & r & E' & D & N).
    { apply (E (tsize t + 2)). lia. }
    exists b', r. split; [exact E'|]. intros X. destruct (N (spend_goes _ _ Eb X)) as [-> ->]. split; [discriminate|reflexivity].
  - exists b, None. split; [reflexivity|]. intros X. now apply spend_fails in Eb.
Qed.

(** Results that stay the same with more fuel. *)
Lemma try_clean_up_ok B h0 h bd w frs t0 b : b_work bd = Some w -> inv B h0 h (d_root (b_dawg bd)) w frs t0 ->
  exists b' h' bd' ok, runs_to (fun fuel => try_clean_up fuel b h bd) (b', h', bd', ok) /\
    b_dawg bd' = b_dawg bd /\
    (ok = false -> h' = h) /\ (b = None -> ok = true /\ b' = None).
Proof.
  intros Hw I. destruct (inv_unf _ _ _ _ _ _ _ _ I (or_introl eq_refl)) as (tr & U).
  destruct (clean_up_ok B h0 h bd w frs t0 Hw I) as (en & h1 & E1 & _).
  destruct (try_all_nodes_ok h (b_dawg bd) tr b U) as (b' & r & E & N).
  destruct r as [nodes|].
  - exists b', h1, (Builder (b_dawg bd) (b_prev bd) None), true. split; [|split; [reflexivity|split; [discriminate|]]].
    + exists (Nat.max en (tsize tr + 2)). intros fuel F.
      specialize (E1 fuel ltac:(lia)). specialize (E fuel ltac:(lia)).
      unfold try_clean_up. rewrite Hw, E. cbn [rbind]. unfold try_all_nodes in E. destruct (spend b); [|discriminate].
      apply try_nodes_same in E. unfold clean_up, all_nodes in E1. rewrite Hw, E in E1. cbn [rbind] in E1.
      destruct (delete_all h (filter (fun p => negb (set_mem p nodes)) (w_floating w))); try discriminate.
      cbn [rbind] in *. congruence.
    + intros X. split; [reflexivity|]. now apply N.
  - exists b', h, (Builder (b_dawg bd) (b_prev bd) (Some (Work [] [] (w_floating w)))), false.
    split; [|split; [reflexivity|split; [reflexivity|]]].
    + exists (tsize tr + 2). intros fuel F. unfold try_clean_up. rewrite Hw, E by exact F. reflexivity.
    + intros X. destruct (N X) as [Y _]. congruence.
Qed.

Lemma try_destroy_ok B h0 h bd w frs t0 b : b_work bd = Some w -> inv B h0 h (d_root (b_dawg bd)) w frs t0 ->
  exists b' r, runs_to (fun fuel => try_destroy fuel b h bd) (b', r) /\ (b = None -> r <> None /\ b' = None).
Proof.
  intros Hw I. destruct (try_clean_up_ok B h0 h bd w frs t0 b Hw I) as (b1 & h1 & bd1 & ok & (en1 & E1) & Db & Nt & Nb).
  destruct ok.
  2: { exists b1, None. split; [|intros X; destruct (Nb X); discriminate].
       exists en1. intros fuel F. unfold try_destroy. rewrite E1 by exact F. reflexivity. }
  destruct (clean_up_ok B h0 h bd w frs t0 Hw I) as (en2 & h2 & E2 & K1 & K2).
  pose proof (E1 (Nat.max en1 en2) ltac:(lia)) as X. apply try_clean_same in X. rewrite E2 in X by lia. injection X as <- <-.
  destruct (inv_unf _ _ _ _ _ _ _ _ I (or_introl eq_refl)) as (tr & U).
  assert (U2 : unf h2 (d_root (b_dawg bd)) tr).
  { eapply unf_frame with (P := reach h (d_root (b_dawg bd))); eauto using reach_closed, reach_refl. intros. now apply K1. }
  destruct (try_all_nodes_ok h2 (b_dawg bd) tr b1 U2) as (b2 & [nodes|] & E3 & N3).
  2: { exists b2, None. split; [|intros X; destruct (N3 (proj2 (Nb X))) as [Y _]; congruence].
       exists (Nat.max en1 (tsize tr + 2)). intros fuel F. unfold try_destroy. rewrite E1 by lia. cbn [rbind negb b_dawg].
       rewrite E3 by lia. reflexivity. }
  destruct (destroy_dawg_all h2 (b_dawg bd) tr U2) as (h3 & E4 & _).
  exists b2, (Some h3). split; [|intros X; split; [discriminate|]; apply N3; now apply Nb].
  exists (Nat.max en1 (tsize tr + 2)). intros fuel F. unfold try_destroy. rewrite E1 by lia. cbn [rbind negb b_dawg].
  specialize (E3 fuel ltac:(lia)). specialize (E4 fuel ltac:(lia)). rewrite E3. cbn [rbind].
  unfold try_all_nodes in E3. destruct (spend b1); [|discriminate]. apply try_nodes_same in E3.
  unfold destroy_dawg, all_nodes in E4. rewrite E3 in E4. cbn [rbind] in E4. rewrite E4. reflexivity.
Qed.

Lemma leaked_keeps h0 h0' h p n (P : ptr -> Prop) : leaked h0 h0' ->
  (forall p, ~ P p -> hget h p = hget h0' p) -> (forall p, P p -> hget h0' p = None) -> (P p \/ ~ P p) ->
  hget h0 p = Some n -> hget h p = Some n.
Proof.
  intros Lk Ba Ow D G.
  assert (G' : hget h0' p = Some n).
  { destruct Lk as [->|(q & nd & F & ->)]; [exact G|]. rewrite hget_hset_other; [exact G|]. congruence. }
  destruct D as [D|D]; [rewrite (Ow p D) in G'; discriminate|]. now rewrite Ba.
Qed.

Lemma ginv_keeps h0 h0' h root w frs t0 dn : leaked h0 h0' -> ginv h0' h root w frs t0 dn -> keeps_nodes h0 h.
Proof.
  intros Lk I p n G. eapply leaked_keeps with (P := fun p => In p (root :: w_floating w)); eauto.
  - apply I.
  - intros q J. now apply (g_own _ _ _ _ _ _ _ I).
  - destruct (in_dec N.eq_dec p (root :: w_floating w)); auto.
Qed.

Lemma ginv_leaves h0 h0' h root w frs t0 dn : leaked h0 h0' -> ginv h0' h root w frs t0 dn ->
  exists p n, hget h0 p = None /\ hget h p = Some n.
Proof.
  intros Lk I. destruct (g_own _ _ _ _ _ _ _ I root (or_introl eq_refl)) as (_ & Al & N). unfold allocated in Al.
  destruct (hget h root) as [n|] eqn:G; [|congruence]. exists root, n. split; [|exact G].
  destruct Lk as [->|(q & nd & F & ->)]; [exact N|]. rewrite hget_hset in N. destruct (N.eqb root q); [discriminate|exact N].
Qed.

Lemma inv_keeps B h0 h root w frs t0 : inv B h0 h root w frs t0 ->
  keeps_nodes h0 h /\ exists p n, hget h0 p = None /\ hget h p = Some n.
Proof. intros I. split; [eapply ginv_keeps|eapply ginv_leaves]; try (now left); eapply inv_ginv; exact I. Qed.

Lemma min_goes fuel : forall k h w b' h' w' ok, try_minimize_loop k fuel None h w = Ok (b', h', w', ok) -> b' = None.
Proof.
  induction k as [|k IH]; intros h w b' h' w' ok Em; cbn in Em; [congruence|].
  destruct (w_unchecked w) as [|[d s t] un]; [discriminate|].
  destruct (minimized_node fuel h _ t) as [e| |]; try discriminate. cbn [rbind] in Em. unfold try_add_edge in Em.
  destruct (N.eqb e null).
  - destruct (read h s) as [n| |]; try discriminate. cbn [rbind] in Em.
    destruct (delete h _) as [h3| |]; try discriminate. cbn [rbind spend] in Em.
    destruct (read h3 s); try discriminate. cbn [rbind negb spend] in Em.
    destruct (map_assign fuel _ _ t); try discriminate. cbn [rbind] in Em. eapply IH; eauto.
  - destruct (read h s) as [n| |]; try discriminate. cbn [rbind] in Em.
    destruct (delete h _) as [h3| |]; try discriminate. cbn [rbind spend] in Em.
    destruct (read h3 s); try discriminate. cbn [rbind negb] in Em. eapply IH; eauto.
Qed.

Lemma try_add_goes fuel alloc b h bd x b' h' bd' r : try_add fuel alloc b h bd x = Ok (b', h', bd', r) -> b = None -> b' = None.
Proof.
  intros X ->. unfold try_add in X. destruct (str_ltb x (b_prev bd)); [congruence|]. destruct x as [|c x].
  - destruct (set_final h _ true); cbn in X; congruence.
  - destruct (deref (b_work bd)) as [w| |]; try discriminate. cbn [rbind] in X. unfold try_minimize in X.
    destruct (try_minimize_loop _ fuel None h w) as [[[[b2 h2] w2] ok]| |] eqn:Em; try discriminate. cbn [rbind] in X.
    apply min_goes in Em. subst b2. destruct ok; cbn [negb] in X; [|congruence].
    destruct (try_push_suffix alloc None h2 w2 _ _) as [[[b3 h3] w3] o] eqn:Ep.
    assert (b3 = None).
    { clear X. revert h2 w2 b3 h3 w3 o Ep.
      intros h2 w2. generalize (match w_unchecked w2 with [] => d_root (b_dawg bd) | t :: _ => t_target t end) as s.
      generalize (skipn (common_prefix (c :: x) (b_prev bd)) (c :: x)) as rest. intros rest. revert h2 w2.
      induction rest as [|d rest IH]; intros h2 w2 s b3 h3 w3 o Ep; cbn in Ep; [congruence|]. eapply IH; eauto. }
    subst b3. destruct o; [|congruence]. destruct (set_final h3 _ true); cbn in X; congruence.
Qed.

Lemma try_add_all_ok alloc : allocator alloc -> forall ts b B h0 h bd t w frs t0,
  binv B h0 h bd t w frs t0 -> short B ts ->
  exists b' h' r, runs_to (fun fuel => try_add_all fuel alloc b h bd ts) (b', h', r) /\
    (b = None -> (r = Refused \/ exists bd', r = Made bd') /\ b' = None) /\
    match r with
    | Made bd' => sorted_by lex_le (b_prev bd :: ts) /\ runs_to (fun fuel => add_all fuel alloc h bd ts) (h', Some bd') /\
        exists t' w' frs' t0', binv B h0 h' bd' t' w' frs' t0'
    | Refused => ~ sorted_by lex_le (b_prev bd :: ts) /\ runs_to (fun fuel => add_all fuel alloc h bd ts) (h', None)
    | Thrown => keeps_nodes h0 h' /\ exists p n, hget h0 p = None /\ hget h' p = Some n
    | Terminated => ~ sorted_by lex_le (b_prev bd :: ts)
    end.
Proof.
  intros A. induction ts as [|x ts IH]; intros b B h0 h bd t w frs t0 BI Sh.
  - exists b, h, (Made bd). split; [now exists 0|]. split; [intros X; split; [right; eauto|exact X]|].
    split; [constructor|]. split; [now exists 0|]. eauto.
  - apply short_cons in Sh. destruct Sh as [Lx Sh]. destruct (lex_lt_dec x (b_prev bd)) as [L|L].
    + destruct (try_destroy_ok B h0 h bd w frs t0 b (bi_work _ _ _ _ _ _ _ _ BI) (bi_inv _ _ _ _ _ _ _ _ BI)) as (b' & r & (en & E) & N).
      assert (NS : ~ sorted_by lex_le (b_prev bd :: x :: ts)) by (rewrite ascending_cons; tauto).
      destruct r as [h'|].
      * exists b', h', Refused. split.
        { exists en. intros fuel F. cbn. rewrite try_add_reject by exact L. cbn. rewrite E by exact F. reflexivity. }
        split; [intros X; split; [now left|now apply N]|]. split; [exact NS|].
        exists en. intros fuel F. cbn. rewrite add_reject by exact L. cbn.
        specialize (E fuel F). apply try_destroy_same in E. now rewrite E.
      * exists b', h, Terminated. split.
        { exists en. intros fuel F. cbn. rewrite try_add_reject by exact L. cbn. rewrite E by exact F. reflexivity. }
        split; [intros X; destruct (N X); congruence|exact NS].
    + destruct (try_add_ok alloc b B h0 h bd t w frs t0 x A BI Lx L) as (b1 & h1 & bd1 & [a|] & E1 & D1).
      * destruct D1 as (-> & (w1 & fr1 & t1 & BI1) & P1 & R1).
        destruct (IH b1 B h0 h1 bd1 _ w1 fr1 t1 BI1 Sh) as (b' & h' & r & (en & E) & N & D).
        assert (S1 : sorted_by lex_le (b_prev bd :: x :: ts) <-> sorted_by lex_le (b_prev bd1 :: ts)).
        { rewrite ascending_cons, P1. tauto. }
        assert (Ra : forall z, runs_to (fun fuel => add_all fuel alloc h1 bd1 ts) z -> runs_to (fun fuel => add_all fuel alloc h bd (x :: ts)) z).
        { intros z (en' & Z). exists (Nat.max B en'). intros fuel F. cbn. pose proof (E1 fuel ltac:(lia)) as X.
          apply try_add_same in X. rewrite X. cbn. apply Z. lia. }
        exists b', h', r. split.
        { exists (Nat.max B en). intros fuel F. cbn. rewrite E1 by lia. cbn. apply E. lia. }
        split.
        { intros X. apply N. eapply try_add_goes; [exact (E1 B (le_n _))|exact X]. }
        destruct r; try rewrite S1; [destruct D as (D1 & D2 & D3)|destruct D as (D1 & D2)| |]; auto.
      * destruct D1 as (Nb & Db & Pb & h0' & w1 & fr1 & t1 & dn & y & lost & reached & X1 & X2 & X3 & X4 & X5).
        exists b1, h1, Thrown. split.
        { exists B. intros fuel F. cbn. rewrite E1 by exact F. reflexivity. }
        split; [congruence|]. split; [eapply ginv_keeps|eapply ginv_leaves]; try exact X2; apply X4.
Qed.

Lemma try_sorted_ok alloc base b terms : allocator alloc ->
  exists b' h r, runs_to (fun fuel => try_sorted_dawg fuel alloc b base terms) (b', h, r) /\
    (b = None -> r = Refused \/ exists bd, r = Made bd) /\
    match r with
    | Made bd => ascending terms /\ runs_to (fun fuel => sorted_dawg fuel alloc base terms) (h, Some bd)
    | Refused => ~ ascending terms /\ runs_to (fun fuel => sorted_dawg fuel alloc base terms) (h, None)
    | Thrown => keeps_nodes base h /\
        (spend_many 2 b <> None -> exists p n, hget base p = None /\ hget h p = Some n)
    | Terminated => ~ ascending terms
    end.
Proof.
  intros A. destruct (spend_many 2 b) as [b0|] eqn:E0.
  2: { exists (Some O), base, Thrown. split; [exists 0; intros; unfold try_sorted_dawg; now rewrite E0|].
       split; [intros X; now apply many_fails in E0|]. split; [intros p n G; exact G|congruence]. }
  destruct (short_ex terms) as (B & HB & Sh). destruct (new_init alloc base) as (h1 & bd1 & E1).
  destruct (new_sorted_dawg_ok alloc B base A HB h1 bd1 E1) as (BI & P1 & S1).
  destruct (spend_many 3 b0) as [b1|] eqn:E3.
  2: { exists (Some O), h1, Thrown. split; [exists 0; intros; unfold try_sorted_dawg; now rewrite E0, E1, E3|].
       split; [intros X; apply many_fails in E3; destruct E3; now apply many_goes with 2 b|].
       destruct (inv_keeps _ _ _ _ _ _ _ (bi_inv _ _ _ _ _ _ _ _ BI)). auto. }
  destruct (try_add_all_ok alloc A terms b1 B base h1 (init bd1) leaf _ _ _ BI Sh) as (b2 & h2 & r & (en & E2) & N2 & D).
  assert (N1 : b = None -> b1 = None).
  { intros X. apply many_goes with 3 b0; [exact E3|]. now apply many_goes with 2 b. }
  rewrite P1 in D. destruct r as [bd2| | |]; try rewrite ascending_nil_cons in D.
  - destruct D as (As & (ea & Ea) & t & w & frs & t0 & BI2).
    destruct (try_min_ok (length (w_unchecked w) - 0) b2 base h2 (d_root (b_dawg bd2)) w frs t0 (mptrs (w_minimized w)) B
      (labels (w_unchecked w)) (fun v => tin (fill frs t0) v = true))
      as (b3 & h3 & w3 & ok & fr3 & t3 & dn3 & lo3 & E4 & A4 & _ & Ok4 & No4).
    { apply inv_after; [apply BI2|rewrite (bi_tree _ _ _ _ _ _ _ _ BI2); apply BI2|apply begins_refl]. }
    { lia. }
    assert (Ef : forall fuel, B <= fuel -> try_finish fuel b2 h2 bd2 = Ok (b3, h3, Builder (b_dawg bd2) (b_prev bd2) (Some w3), ok)).
    { intros fuel F. unfold try_finish, try_minimize. rewrite (bi_work _ _ _ _ _ _ _ _ BI2). cbn [deref rbind].
      rewrite E4 by exact F. reflexivity. }
    destruct ok.
    2: { exists b3, h3, Thrown. split.
         { exists (Nat.max en B). intros fuel F. unfold try_sorted_dawg. rewrite E0, E1, E3, E2 by lia. cbn [rbind].
           rewrite Ef by lia. reflexivity. }
         split; [intros X; destruct (No4 (proj2 (N2 (N1 X)))); discriminate|].
         split; [|intros _]; [eapply ginv_keeps|eapply ginv_leaves]; try (now left); apply A4. }
    destruct (finish_ok B base h2 bd2 t w frs t0 BI2) as (h3' & w3' & E5 & I5 & U5).
    pose proof (Ef B (le_n _)) as X. apply try_finish_same in X. rewrite (E5 B (le_n _)) in X. injection X as -> ->.
    destruct (try_clean_up_ok B base h3 (Builder (b_dawg bd2) (b_prev bd2) (Some w3)) w3 [] t b3 eq_refl I5)
      as (b4 & h4 & bd4 & ok & (en4 & E6) & Db & Nt & Nb).
    exists b4, h4, (if ok then Made bd4 else Thrown). split.
    { exists (Nat.max (Nat.max en B) en4). intros fuel F. unfold try_sorted_dawg. rewrite E0, E1, E3, E2 by lia. cbn [rbind].
      rewrite Ef by lia. cbn [rbind negb]. rewrite E6 by lia. cbn [rbind]. now destruct ok. }
    split. { intros X. right. exists bd4. destruct (Nb (proj2 (No4 (proj2 (N2 (N1 X)))))) as [-> _]. reflexivity. }
    destruct ok.
    + split; [exact As|]. exists (Nat.max (Nat.max ea B) en4). intros fuel F. unfold sorted_dawg. rewrite E1, Ea by lia.
      cbn [rbind]. rewrite E5 by lia. cbn [rbind]. pose proof (E6 fuel ltac:(lia)) as X. apply try_clean_same in X. now rewrite X.
    + rewrite (Nt eq_refl). destruct (inv_keeps _ _ _ _ _ _ _ I5). auto.
  - destruct D as (NA & (ea & Ea)). exists b2, h2, Refused. split.
    { exists en. intros fuel F. unfold try_sorted_dawg. rewrite E0, E1, E3, E2 by exact F. reflexivity. }
    split; [auto|]. split; [exact NA|]. exists ea. intros fuel F. unfold sorted_dawg. rewrite E1, Ea by exact F. reflexivity.
  - exists b2, h2, Thrown. split.
    { exists en. intros fuel F. unfold try_sorted_dawg. rewrite E0, E1, E3, E2 by exact F. reflexivity. }
    split; [intros X; destruct (N2 (N1 X)) as [[Y|[? Y]] _]; discriminate|]. destruct D. auto.
  - exists b2, h2, Terminated. split.
    { exists en. intros fuel F. unfold try_sorted_dawg. rewrite E0, E1, E3, E2 by exact F. reflexivity. }
    split; [|exact D]. intros X. destruct (N2 (N1 X)) as [[Y|[? Y]] _]; discriminate.
Qed.

(** ** How much memory is enough *)
Lemma spend_more k n : S n <= k -> spend (Some k) = Some (Some (k - 1)).
Proof. destruct k; [lia|]. intros _. cbn. now rewrite Nat.sub_0_r. Qed.

Lemma many_more m : forall k, m <= k -> spend_many m (Some k) = Some (Some (k - m)).
Proof.
  induction m as [|m IH]; intros k L; cbn [spend_many]; [now rewrite Nat.sub_0_r|].
  rewrite (spend_more k m L), IH by lia. do 2 f_equal. lia.
Qed.
Lemma many_none m : spend_many m None = Some None.
Proof. induction m; [reflexivity|exact IHm]. Qed.

Lemma min_suffices fuel : forall k h w b' h' w' ok, try_minimize_loop k fuel None h w = Ok (b', h', w', ok) ->
  ok = true /\ exists n, forall j, n <= j -> try_minimize_loop k fuel (Some j) h w = Ok (Some (j - n), h', w', true).
Proof.
  induction k as [|k IH]; intros h w b' h' w' ok E; cbn [try_minimize_loop] in *.
  - injection E as <- <- <- <-. split; [reflexivity|]. exists 0. intros j _. now rewrite Nat.sub_0_r.
  - destruct (w_unchecked w) as [|[c s t] un]; [discriminate|]. cbn [spend] in E.
    destruct (minimized_node fuel h (w_minimized w) t) as [e| |] eqn:Em; try discriminate. cbn [rbind] in E.
    unfold try_add_edge in E. destruct (N.eqb e null) eqn:Ee.
    + destruct (read h s) as [n| |] eqn:R1; try discriminate. cbn [rbind] in E.
      destruct (delete h (transition n c)) as [h1| |] eqn:Ed; try discriminate. cbn [rbind spend] in E.
      destruct (read h1 s) as [n1| |] eqn:R2; try discriminate. cbn [rbind negb spend] in E.
      destruct (map_assign fuel _ (w_minimized w) t) as [m| |] eqn:Ea; try discriminate. cbn [rbind] in E.
      destruct (IH _ _ _ _ _ _ E) as (-> & x & X). split; [reflexivity|]. exists (3 + x). intros j L.
      rewrite (spend_more j 0) by lia. cbn [rbind]. rewrite Ee. unfold try_add_edge. rewrite R1. cbn [rbind].
      rewrite Ed. cbn [rbind]. rewrite (spend_more (j - 1) 0) by lia. rewrite R2. cbn [rbind negb].
      rewrite (spend_more (j - 1 - 1) 0) by lia. rewrite Ea. cbn [rbind]. rewrite X by lia. do 4 f_equal. f_equal. lia.
    + destruct (read h s) as [n| |] eqn:R1; try discriminate. cbn [rbind] in E.
      destruct (delete h (transition n c)) as [h1| |] eqn:Ed; try discriminate. cbn [rbind spend] in E.
      destruct (read h1 s) as [n1| |] eqn:R2; try discriminate. cbn [rbind negb] in E.
      destruct (IH _ _ _ _ _ _ E) as (-> & x & X). split; [reflexivity|]. exists (2 + x). intros j L.
      rewrite (spend_more j 0) by lia. cbn [rbind]. rewrite Ee. unfold try_add_edge. rewrite R1. cbn [rbind].
      rewrite Ed. cbn [rbind]. rewrite (spend_more (j - 1) 0) by lia. rewrite R2. cbn [rbind negb].
      rewrite X by lia. do 4 f_equal. f_equal. lia.
Qed.

Lemma push_suffices alloc : forall rest h w s, exists h' w' p,
  try_push_suffix alloc None h w s rest = (None, h', w', Some p) /\
  forall j, 3 * length rest <= j -> try_push_suffix alloc (Some j) h w s rest = (Some (j - 3 * length rest), h', w', Some p).
Proof.
  induction rest as [|c rest IH]; intros h w s; cbn [try_push_suffix].
  - exists h, w, s. split; [reflexivity|]. intros j _. cbn. now rewrite Nat.sub_0_r.
  - unfold new_node. change (spend None) with (Some (None : budget)). cbv iota.
    destruct (IH (hset h (alloc h) (Node false []))
      (Work (Trans c s (alloc h) :: w_unchecked w) (w_minimized w) (set_insert (alloc h) (w_floating w))) (alloc h))
      as (h' & w' & p & E & X).
    exists h', w', p. split; [exact E|]. intros j L. cbn [length] in L.
    rewrite (spend_more j 0) by lia. rewrite (spend_more (j - 1) 0) by lia. rewrite (spend_more (j - 1 - 1) 0) by lia.
    rewrite X by lia. do 4 f_equal. cbn [length]. lia.
Qed.

Lemma add_suffices fuel alloc h bd x b' h' bd' r : try_add fuel alloc None h bd x = Ok (b', h', bd', r) ->
  r <> None /\ exists n, forall j, n <= j -> try_add fuel alloc (Some j) h bd x = Ok (Some (j - n), h', bd', r).
Proof.
  unfold try_add. destruct (str_ltb x (b_prev bd)).
  - intros E. injection E as <- <- <- <-. split; [discriminate|]. exists 0. intros j _. now rewrite Nat.sub_0_r.
  - destruct x as [|c x].
    + destruct (set_final h _ true) as [h1| |]; try discriminate. cbn [rbind]. intros E. injection E as <- <- <- <-.
      split; [discriminate|]. exists 0. intros j _. now rewrite Nat.sub_0_r.
    + destruct (deref (b_work bd)) as [w| |]; try discriminate. cbn [rbind]. unfold try_minimize.
      destruct (try_minimize_loop _ fuel None h w) as [[[[b1 h1] w1] ok]| |] eqn:Em; try discriminate. cbn [rbind].
      pose proof (min_goes _ _ _ _ _ _ _ _ Em) as ->.
      destruct (min_suffices _ _ _ _ _ _ _ _ Em) as (-> & n & X). cbn [negb].
      match goal with |- context [try_push_suffix alloc None h1 w1 ?s ?rest] =>
        destruct (push_suffices alloc rest h1 w1 s) as (h2 & w2 & p & E2 & X2); set (m := 3 * length rest) in * end.
      rewrite E2. destruct (set_final h2 p true) as [h3| |] eqn:E3; try discriminate. cbn [rbind spend].
      intros E. injection E as <- <- <- <-. split; [discriminate|]. exists (n + m + 1). intros j L.
      rewrite X by lia. cbn [rbind negb]. rewrite X2 by lia. rewrite E3. cbn [rbind].
      rewrite (spend_more (j - n - m) 0) by lia. do 5 f_equal. lia.
Qed.

Lemma nodes_suffices h : forall fuel ps ns b' r, try_all_nodes_loop fuel None h ps ns = Ok (b', r) ->
  b' = None /\ r <> None /\ exists n, forall j, n <= j -> try_all_nodes_loop fuel (Some j) h ps ns = Ok (Some (j - n), r).
Proof.
  induction fuel as [|fuel IH]; intros ps ns b' r E; cbn [try_all_nodes_loop] in *; [discriminate|].
  destruct ps as [|p ps].
  - injection E as <- <-. split; [reflexivity|]. split; [discriminate|]. exists 0. intros j _. now rewrite Nat.sub_0_r.
  - cbn [spend] in E. destruct (read h p) as [n| |]; try discriminate. cbn [rbind] in *. rewrite many_none in E.
    destruct (IH _ _ _ _ E) as (-> & N & m & X). split; [reflexivity|]. split; [exact N|].
    exists (1 + length (nedges n) + m). intros j L. rewrite (spend_more j 0) by lia. rewrite many_more by lia.
    rewrite X by lia. do 3 f_equal. lia.
Qed.

Lemma all_nodes_suffices fuel h d b' r : try_all_nodes fuel None h d = Ok (b', r) ->
  b' = None /\ r <> None /\ exists n, forall j, n <= j -> try_all_nodes fuel (Some j) h d = Ok (Some (j - n), r).
Proof.
  unfold try_all_nodes. intros E. cbn [spend] in E. destruct (nodes_suffices _ _ _ _ _ _ E) as (-> & N & m & X).
  split; [reflexivity|]. split; [exact N|]. exists (1 + m). intros j L. rewrite (spend_more j 0) by lia.
  rewrite X by lia. do 3 f_equal. lia.
Qed.

Lemma clean_suffices fuel h bd b' h' bd' ok : try_clean_up fuel None h bd = Ok (b', h', bd', ok) ->
  b' = None /\ ok = true /\ exists n, forall j, n <= j -> try_clean_up fuel (Some j) h bd = Ok (Some (j - n), h', bd', true).
Proof.
  unfold try_clean_up. destruct (b_work bd) as [w|].
  - destruct (try_all_nodes fuel None h (b_dawg bd)) as [[b1 r]| |] eqn:E; try discriminate. cbn [rbind].
    destruct (all_nodes_suffices _ _ _ _ _ E) as (-> & N & m & X). destruct r as [nodes|]; [|congruence].
    destruct (delete_all h _) as [h1| |] eqn:Ed; try discriminate. cbn [rbind]. intros Y. injection Y as <- <- <- <-.
    split; [reflexivity|]. split; [reflexivity|]. exists m. intros j L. rewrite X by lia. cbn [rbind]. rewrite Ed. reflexivity.
  - intros Y. injection Y as <- <- <- <-. split; [reflexivity|]. split; [reflexivity|]. exists 0. intros j _. now rewrite Nat.sub_0_r.
Qed.

Lemma destroy_suffices fuel h bd b' r : try_destroy fuel None h bd = Ok (b', r) ->
  b' = None /\ r <> None /\ exists n, forall j, n <= j -> try_destroy fuel (Some j) h bd = Ok (Some (j - n), r).
Proof.
  unfold try_destroy. destruct (try_clean_up fuel None h bd) as [[[[b1 h1] bd1] ok]| |] eqn:E; try discriminate. cbn [rbind].
  destruct (clean_suffices _ _ _ _ _ _ _ E) as (-> & -> & m & X). cbn [negb].
  destruct (try_all_nodes fuel None h1 (b_dawg bd1)) as [[b2 o]| |] eqn:E2; try discriminate. cbn [rbind].
  destruct (all_nodes_suffices _ _ _ _ _ E2) as (-> & N & m2 & X2). destruct o as [nodes|]; [|congruence].
  destruct (delete_all h1 nodes) as [h2| |] eqn:Ed; try discriminate. cbn [rbind]. intros Y. injection Y as <- <-.
  split; [reflexivity|]. split; [discriminate|]. exists (m + m2). intros j L. rewrite X by lia. cbn [rbind negb].
  rewrite X2 by lia. cbn [rbind]. rewrite Ed. cbn [rbind]. do 3 f_equal. lia.
Qed.

Lemma add_all_suffices fuel alloc : forall ts h bd b' h' r, try_add_all fuel alloc None h bd ts = Ok (b', h', r) ->
  b' = None /\ exists n, forall j, n <= j -> try_add_all fuel alloc (Some j) h bd ts = Ok (Some (j - n), h', r).
Proof.
  induction ts as [|x ts IH]; intros h bd b' h' r E; cbn [try_add_all] in *.
  - injection E as <- <- <-. split; [reflexivity|]. exists 0. intros j _. now rewrite Nat.sub_0_r.
  - destruct (try_add fuel alloc None h bd x) as [[[[b1 h1] bd1] a]| |] eqn:E1; try discriminate. cbn [rbind] in E.
    pose proof (try_add_goes _ _ _ _ _ _ _ _ _ _ E1 eq_refl) as ->.
    destruct (add_suffices _ _ _ _ _ _ _ _ _ E1) as (Na & n & X). destruct a as [[|]|]; [| |congruence].
    + destruct (IH _ _ _ _ _ E) as (-> & m & Y). split; [reflexivity|]. exists (n + m). intros j L.
      rewrite X by lia. cbn [rbind]. rewrite Y by lia. do 4 f_equal. lia.
    + destruct (try_destroy fuel None h1 bd1) as [[b2 o]| |] eqn:Ed; try discriminate. cbn [rbind] in E.
      destruct (destroy_suffices _ _ _ _ _ Ed) as (-> & No & m & Y). destruct o as [h2|]; [|congruence].
      injection E as <- <- <-. split; [reflexivity|]. exists (n + m). intros j L.
      rewrite X by lia. cbn [rbind]. rewrite Y by lia. cbn [rbind]. do 4 f_equal. lia.
Qed.

Lemma sorted_suffices fuel alloc base terms b' h r : try_sorted_dawg fuel alloc None base terms = Ok (b', h, r) ->
  exists n, forall j, n <= j -> try_sorted_dawg fuel alloc (Some j) base terms = Ok (Some (j - n), h, r).
Proof.
  unfold try_sorted_dawg. rewrite (many_none 2). destruct (new_sorted_dawg alloc base) as [h0 bd0]. rewrite (many_none 3).
  destruct (try_add_all fuel alloc None h0 (init bd0) terms) as [[[b1 h1] r1]| |] eqn:E1; try discriminate. cbn [rbind].
  destruct (add_all_suffices _ _ _ _ _ _ _ _ E1) as (-> & n & X).
  assert (M2 : forall j, 5 <= j -> spend_many 2 (Some j) = Some (Some (j - 2))) by (intros; apply many_more; lia).
  assert (M3 : forall j, 5 <= j -> spend_many 3 (Some (j - 2)) = Some (Some (j - 5))).
  { intros j L. rewrite many_more by lia. do 2 f_equal. lia. }
  assert (Out : forall r', (forall bd, r' <> Made bd) -> r1 = r' ->
    (Ok (None, h1, r') : res (budget * heap * ending)) = Ok (b', h, r) ->
    exists n, forall j, n <= j -> match spend_many 2 (Some j) with
      | None => Ok (Some O, base, Thrown)
      | Some b0 => match spend_many 3 b0 with
        | None => Ok (Some O, h0, Thrown)
        | Some b1 => do (b2, h1, r) <- try_add_all fuel alloc b1 h0 (init bd0) terms;
            match r with
            | Made bd1 =>
              do (b3, h2, bd2, done) <- try_finish fuel b2 h1 bd1;
              if negb done then Ok (b3, h2, Thrown)
              else do (b4, h3, bd3, done) <- try_clean_up fuel b3 h2 bd2;
                   Ok (b4, h3, if (done : bool) then Made bd3 else Thrown)
            | _ => Ok (b2, h1, r)
            end
        end
      end = Ok (Some (j - n), h, r)).
  { intros r' NM -> E. injection E as <- <- <-. exists (5 + n). intros j L. rewrite M2, M3, X by lia. cbn [rbind].
    destruct r'; [congruence| | |]; do 4 f_equal; lia. }
  destruct r1 as [bd1| | |]; [|apply (Out Refused); [discriminate|reflexivity]
    |apply (Out Thrown); [discriminate|reflexivity]|apply (Out Terminated); [discriminate|reflexivity]].
  clear Out. unfold try_finish at 1, try_minimize at 1. destruct (deref (b_work bd1)) as [w| |] eqn:Ew; try discriminate. cbn [rbind].
  destruct (try_minimize_loop _ fuel None h1 w) as [[[[b2 h2] w2] ok]| |] eqn:Em; try discriminate. cbn [rbind].
  pose proof (min_goes _ _ _ _ _ _ _ _ Em) as ->. destruct (min_suffices _ _ _ _ _ _ _ _ Em) as (-> & m & Y). cbn [negb].
  destruct (try_clean_up fuel None h2 _) as [[[[b3 h3] bd3] ok]| |] eqn:Ec; try discriminate. cbn [rbind].
  destruct (clean_suffices _ _ _ _ _ _ _ Ec) as (-> & -> & c & Z). intros E. injection E as <- <- <-.
  exists (5 + n + m + c). intros j L. rewrite M2, M3, X by lia. cbn [rbind]. unfold try_finish, try_minimize. rewrite Ew. cbn [rbind].
  rewrite Y by lia. cbn [rbind negb]. rewrite Z by lia. cbn [rbind]. do 4 f_equal. lia.
Qed.

(** ** More fuel changes nothing *)
Section Mono.
  Variables (f f' : nat).
  Hypothesis L : f <= f'.

  Lemma node_eq_mono : forall g g' h a b r, g <= g' -> node_eq g h a b = Ok r -> node_eq g' h a b = Ok r.
  Proof.
    induction g as [|g IH]; intros [|g'] h a b r Le E; try discriminate; try lia. rewrite node_eq_S in *.
    destruct (negb (Bool.eqb (nfin a) (nfin b))); [exact E|]. destruct (negb _); [exact E|].
    revert E. induction (nedges a) as [|[c p] es IHes]; cbn [eq_each]; [auto|]. destruct (N.eqb (transition b c) null); [auto|].
    destruct (read h p) as [x| |]; try discriminate. cbn [rbind]. destruct (read h (transition b c)) as [y| |]; try discriminate.
    cbn [rbind]. destruct (node_eq g h x y) as [e| |] eqn:En; try discriminate. apply (IH g') in En; [|lia]. rewrite En. cbn [rbind].
    destruct e; auto.
  Qed.

  Lemma node_hash_mono : forall g g' h n r, g <= g' -> node_hash g h n = Ok r -> node_hash g' h n = Ok r.
  Proof.
    induction g as [|g IH]; intros [|g'] h n r Le E; try discriminate; try lia. rewrite node_hash_S in *.
    destruct (hash_each g h (nedges n) DEADBEEF) as [code| |] eqn:Ec; try discriminate.
    assert (X : hash_each g' h (nedges n) DEADBEEF = Ok code); [|rewrite X; exact E].
    clear E. revert Ec. generalize DEADBEEF. induction (nedges n) as [|[c p] es IHes]; intros s; cbn [hash_each]; [auto|].
    destruct (read h p) as [x| |]; try discriminate. cbn [rbind].
    destruct (node_hash g h x) as [k| |] eqn:Ek; try discriminate. apply (IH g') in Ek; [|lia]. rewrite Ek. cbn [rbind]. apply IHes.
  Qed.

  Lemma map_find_mono h code key : forall m r, map_find f h code key m = Ok r -> map_find f' h code key m = Ok r.
  Proof.
    induction m as [|e m IH]; intros r; cbn; [auto|]. destruct (N.eqb (e_hash e) code); [|apply IH].
    destruct (node_eq f h key (e_key e)) as [s| |] eqn:E; try discriminate. rewrite (node_eq_mono _ _ _ _ _ _ L E). cbn.
    destruct s; auto.
  Qed.

  Lemma map_replace_mono h code key p : forall m r, map_replace f h code key p m = Ok r -> map_replace f' h code key p m = Ok r.
  Proof.
    induction m as [|e m IH]; intros r; cbn; [auto|].
    assert (X : (do r <- map_replace f h code key p m; Ok (e :: r)) = Ok r -> (do r <- map_replace f' h code key p m; Ok (e :: r)) = Ok r).
    { destruct (map_replace f h code key p m) as [r'| |] eqn:E; try discriminate. now rewrite (IH _ eq_refl). }
    destruct (N.eqb (e_hash e) code); [|exact X].
    destruct (node_eq f h key (e_key e)) as [s| |] eqn:E; try discriminate. rewrite (node_eq_mono _ _ _ _ _ _ L E). cbn [rbind].
    destruct s; auto.
  Qed.

  Lemma minimized_mono h m key r : minimized_node f h m key = Ok r -> minimized_node f' h m key = Ok r.
  Proof.
    unfold minimized_node. destruct (read h key) as [n| |]; try discriminate. cbn [rbind].
    destruct (node_hash f h n) as [c| |] eqn:E; try discriminate. rewrite (node_hash_mono _ _ _ _ _ L E). cbn [rbind]. apply map_find_mono.
  Qed.

  Lemma assign_mono h m t r : map_assign f h m t = Ok r -> map_assign f' h m t = Ok r.
  Proof.
    unfold map_assign. destruct (read h t) as [n| |]; try discriminate. cbn [rbind].
    destruct (node_hash f h n) as [c| |] eqn:E; try discriminate. rewrite (node_hash_mono _ _ _ _ _ L E). cbn [rbind]. apply map_replace_mono.
  Qed.

  Lemma try_min_mono : forall k b h w r, try_minimize_loop k f b h w = Ok r -> try_minimize_loop k f' b h w = Ok r.
  Proof.
    induction k as [|k IH]; intros b h w r; cbn [try_minimize_loop]; [auto|]. destruct (w_unchecked w) as [|[c s t] un]; [auto|].
    destruct (spend b) as [b1|]; [|auto]. destruct (minimized_node f h (w_minimized w) t) as [e| |] eqn:E; try discriminate.
    rewrite (minimized_mono _ _ _ _ E). cbn [rbind]. destruct (N.eqb e null).
    - destruct (try_add_edge b1 h s c t) as [[[b2 h1] [|]]| |]; try discriminate; cbn [rbind negb]; [|auto].
      destruct (spend b2) as [b3|]; [|auto]. destruct (map_assign f h1 (w_minimized w) t) as [m| |] eqn:Ea; try discriminate.
      rewrite (assign_mono _ _ _ _ Ea). cbn [rbind]. apply IH.
    - destruct (try_add_edge b1 h s c e) as [[[b2 h1] [|]]| |]; try discriminate; cbn [rbind negb]; [apply IH|auto].
  Qed.

  Lemma try_add_mono alloc b h bd x r : try_add f alloc b h bd x = Ok r -> try_add f' alloc b h bd x = Ok r.
  Proof.
    unfold try_add. destruct (str_ltb x (b_prev bd)); [auto|]. destruct x as [|c x]; [auto|].
    destruct (deref (b_work bd)) as [w| |]; try discriminate. cbn [rbind]. unfold try_minimize.
    destruct (try_minimize_loop _ f b h w) as [[[[b1 h1] w1] ok]| |] eqn:E; try discriminate.
    rewrite (try_min_mono _ _ _ _ _ E). auto.
  Qed.

  Lemma try_finish_mono b h bd r : try_finish f b h bd = Ok r -> try_finish f' b h bd = Ok r.
  Proof.
    unfold try_finish, try_minimize. destruct (deref (b_work bd)) as [w| |]; try discriminate. cbn [rbind].
    destruct (try_minimize_loop _ f b h w) as [[[[b1 h1] w1] ok]| |] eqn:E; try discriminate.
    rewrite (try_min_mono _ _ _ _ _ E). auto.
  Qed.

  Lemma try_nodes_mono h : forall g g' b ps ns r, g <= g' -> try_all_nodes_loop g b h ps ns = Ok r -> try_all_nodes_loop g' b h ps ns = Ok r.
  Proof.
    induction g as [|g IH]; intros [|g'] b ps ns r Le; cbn [try_all_nodes_loop]; try discriminate; try lia.
    destruct ps as [|p ps]; [auto|]. destruct (spend b); [|auto]. destruct (read h p) as [n| |]; try discriminate. cbn [rbind].
    destruct (spend_many _ _); [|auto]. apply IH. lia.
  Qed.

  Lemma try_all_mono b h d r : try_all_nodes f b h d = Ok r -> try_all_nodes f' b h d = Ok r.
  Proof. unfold try_all_nodes. destruct (spend b); [|auto]. now apply try_nodes_mono. Qed.

  Lemma try_clean_mono b h bd r : try_clean_up f b h bd = Ok r -> try_clean_up f' b h bd = Ok r.
  Proof.
    unfold try_clean_up. destruct (b_work bd) as [w|]; [|auto].
    destruct (try_all_nodes f b h (b_dawg bd)) as [[b1 o]| |] eqn:E; try discriminate. rewrite (try_all_mono _ _ _ _ E). auto.
  Qed.

  Lemma try_destroy_mono b h bd r : try_destroy f b h bd = Ok r -> try_destroy f' b h bd = Ok r.
  Proof.
    unfold try_destroy. destruct (try_clean_up f b h bd) as [[[[b1 h1] bd1] ok]| |] eqn:E; try discriminate.
    rewrite (try_clean_mono _ _ _ _ E). cbn [rbind]. destruct ok; cbn [negb]; [|auto].
    destruct (try_all_nodes f b1 h1 (b_dawg bd1)) as [[b2 o]| |] eqn:E2; try discriminate. rewrite (try_all_mono _ _ _ _ E2). auto.
  Qed.

  Lemma try_add_all_mono alloc : forall ts b h bd r, try_add_all f alloc b h bd ts = Ok r -> try_add_all f' alloc b h bd ts = Ok r.
  Proof.
    induction ts as [|x ts IH]; intros b h bd r; cbn [try_add_all]; [auto|].
    destruct (try_add f alloc b h bd x) as [[[[b1 h1] bd1] o]| |] eqn:E; try discriminate. rewrite (try_add_mono _ _ _ _ _ _ E). cbn [rbind].
    destruct o as [[|]|]; [apply IH| |auto].
    destruct (try_destroy f b1 h1 bd1) as [[b2 o]| |] eqn:E2; try discriminate. rewrite (try_destroy_mono _ _ _ _ E2). auto.
  Qed.

  Lemma try_sorted_mono alloc b base ts r : try_sorted_dawg f alloc b base ts = Ok r -> try_sorted_dawg f' alloc b base ts = Ok r.
  Proof.
    unfold try_sorted_dawg. destruct (spend_many 2 b) as [b0|]; [|auto]. destruct (new_sorted_dawg alloc base) as [h0 bd0].
    destruct (spend_many 3 b0) as [b1|]; [|auto].
    destruct (try_add_all f alloc b1 h0 (init bd0) ts) as [[[b2 h1] o]| |] eqn:E; try discriminate. rewrite (try_add_all_mono _ _ _ _ _ _ E). cbn [rbind].
    destruct o as [bd1| | |]; auto.
    destruct (try_finish f b2 h1 bd1) as [[[[b3 h2] bd2] ok]| |] eqn:E2; try discriminate. rewrite (try_finish_mono _ _ _ _ E2). cbn [rbind].
    destruct ok; cbn [negb]; [|auto].
    destruct (try_clean_up f b3 h2 bd2) as [[[[b4 h3] bd3] ok]| |] eqn:E3; try discriminate. rewrite (try_clean_mono _ _ _ _ E3). auto.
  Qed.
End Mono.

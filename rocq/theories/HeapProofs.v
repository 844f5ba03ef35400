(** * HeapProofs: nodes in memory and their unfoldings. *)
From Coq Require Import Sorting.Sorted.
From Verif Require Import Base ModelHash ModelDawg SpecDawg TreeProofs.

(** ** The heap as a finite map *)
Lemma hget_hdel : forall h p q, hget (hdel h p) q = if N.eqb q p then None else hget h q.
Proof. reflexivity. Qed.

Lemma hget_hset : forall h p n q, hget (hset h p n) q = if N.eqb q p then Some n else hget h q.
Proof. reflexivity. Qed.

Lemma hget_hset_same : forall h p n, hget (hset h p n) p = Some n.
Proof. intros. rewrite hget_hset, N.eqb_refl. auto. Qed.

Lemma hget_hset_other : forall h p n q, q <> p -> hget (hset h p n) q = hget h q.
Proof. intros. rewrite hget_hset. apply N.eqb_neq in H. rewrite H. auto. Qed.

Lemma read_ok : forall h p n, p <> null -> hget h p = Some n -> read h p = Ok n.
Proof. intros. unfold read. apply N.eqb_neq in H. rewrite H, H0. auto. Qed.

Global Arguments hget : simpl never.
Global Arguments hset : simpl never.
Global Arguments hdel : simpl never.

(** ** Unfolding *)
Inductive unf (h : heap) : ptr -> tree -> Prop :=
| unf_ptr : forall p n es, p <> null -> hget h p = Some n -> esorted (nedges n) ->
    unfs h (nedges n) es -> unf h p (T (nfin n) es)
with unfs (h : heap) : list (char * ptr) -> list (char * tree) -> Prop :=
| unfs_nil : unfs h [] []
| unfs_cons : forall c q t es ts, unf h q t -> unfs h es ts -> unfs h ((c, q) :: es) ((c, t) :: ts).

Scheme unf_mut := Induction for unf Sort Prop
with unfs_mut := Induction for unfs Sort Prop.
Combined Scheme unf_unfs_ind from unf_mut, unfs_mut.

Definition nunf (h : heap) (n : node) (t : tree) : Prop :=
  esorted (nedges n) /\ unfs h (nedges n) (tedges t) /\ tfin t = nfin n.

Lemma unf_inv : forall h p t, unf h p t -> exists n, p <> null /\ hget h p = Some n /\ nunf h n t.
Proof. intros h p t H. inversion H; subst. exists n. repeat split; auto. Qed.

Lemma unf_intro : forall h p n t, p <> null -> hget h p = Some n -> nunf h n t -> unf h p t.
Proof.
  intros h p n [f es] P G (S & U & F). cbn in *. subst. constructor; auto.
Qed.

Lemma unf_read : forall h p t, unf h p t -> exists n, read h p = Ok n /\ hget h p = Some n /\ nunf h n t.
Proof.
  intros h p t H. apply unf_inv in H. destruct H as (n & P & G & U). exists n. split; auto using read_ok.
Qed.

Lemma unfs_sorted : forall h es ts, unfs h es ts -> esorted es -> esorted ts.
Proof.
  unfold esorted. intros h es ts U S. induction U; [constructor|].
  inversion S as [|? ? S' F]; subst. constructor; auto.
  clear - U F. induction U; constructor; inversion F; subst; auto.
Qed.

Lemma unf_tsorted : forall h,
  (forall p t, unf h p t -> tsorted t) /\
  (forall es ts, unfs h es ts -> Forall (fun e => tsorted (snd e)) ts).
Proof.
  intros h. apply unf_unfs_ind; intros; auto.
  constructor; auto. eapply unfs_sorted; eauto.
Qed.

Lemma nunf_tsorted : forall h n t, nunf h n t -> tsorted t.
Proof.
  intros h n [f ts] (S & U & F). cbn in *. constructor.
  - eapply unfs_sorted; eauto.
  - eapply unf_tsorted; eauto.
Qed.

Lemma unf_fun : forall h,
  (forall p t, unf h p t -> forall t', unf h p t' -> t = t') /\
  (forall es ts, unfs h es ts -> forall ts', unfs h es ts' -> ts = ts').
Proof.
  intros h. apply unf_unfs_ind.
  - intros p n es P G S U IH t' U'. inversion U'; subst.
    rewrite G in H0. injection H0 as <-. f_equal. auto.
  - intros ts' U. inversion U; auto.
  - intros c q t es ts U IH Us IHs ts' U'. inversion U'; subst. f_equal; auto. f_equal; auto.
Qed.

Lemma unf_det : forall h p t t', unf h p t -> unf h p t' -> t = t'.
Proof. intros. eapply unf_fun; eauto. Qed.

Lemma nunf_det : forall h n t t', nunf h n t -> nunf h n t' -> t = t'.
Proof.
  intros h n [f ts] [f' ts'] (S & U & F) (S' & U' & F'). cbn in *. f_equal; [congruence|].
  eapply (proj2 (unf_fun h)); eauto.
Qed.

Lemma unfs_get : forall h es ts c, unfs h es ts ->
  match edge_get es c with
  | Some q => exists t, edge_get ts c = Some t /\ unf h q t
  | None => edge_get ts c = None
  end.
Proof.
  intros h es ts c U. induction U; cbn; auto.
  destruct (ceqb c c0); eauto.
Qed.

Lemma unfs_In : forall h es ts c q, unfs h es ts -> In (c, q) es ->
  exists t, In (c, t) ts /\ unf h q t.
Proof.
  intros h es ts c q U. induction U; cbn; [tauto|].
  intros [I|I].
  - injection I as -> ->. eauto.
  - destruct (IHU I) as (t' & ? & ?). eauto.
Qed.

Lemma unfs_In_r : forall h es ts c t, unfs h es ts -> In (c, t) ts ->
  exists q, In (c, q) es /\ unf h q t.
Proof.
  intros h es ts c t U. induction U; cbn; [tauto|].
  intros [I|I].
  - injection I as -> ->. eauto.
  - destruct (IHU I) as (t' & ? & ?). eauto.
Qed.

Lemma unfs_length : forall h es ts, unfs h es ts -> length es = length ts.
Proof. intros h es ts U. induction U; cbn; auto. Qed.

Lemma unfs_set : forall h es ts c q t, unfs h es ts -> unf h q t ->
  unfs h (edge_set es c q) (edge_set ts c t).
Proof.
  intros h es ts c q t U Q. induction U; cbn.
  - repeat constructor; auto.
  - destruct (ceqb c c0); [constructor; auto|].
    destruct (schar c <? schar c0)%Z; repeat (constructor; auto).
Qed.

(** ** Paths *)
Lemma path_app : forall h p u q v r, path h p u q -> path h q v r -> path h p (u ++ v) r.
Proof. intros h p u q v r H. induction H; cbn; auto. intros. econstructor; eauto. Qed.

Lemma path_snoc : forall h p u q n c r, path h p u q -> hget h q = Some n -> In (c, r) (nedges n) ->
  path h p (u ++ [c]) r.
Proof. intros. eapply path_app; eauto. econstructor; eauto. constructor. Qed.

Lemma reach_refl : forall h p, reach h p p.
Proof. intros. exists []. constructor. Qed.

Lemma reach_step : forall h p q n c r, reach h p q -> hget h q = Some n -> In (c, r) (nedges n) -> reach h p r.
Proof. intros h p q n c r [w P] G I. exists (w ++ [c]). eapply path_snoc; eauto. Qed.

Lemma reach_cons : forall h p n c q r, hget h p = Some n -> In (c, q) (nedges n) -> reach h q r -> reach h p r.
Proof. intros h p n c q r G I [w P]. exists (c :: w). econstructor; eauto. Qed.

Lemma reach_trans : forall h p q r, reach h p q -> reach h q r -> reach h p r.
Proof. intros h p q r [u P] [v Q]. exists (u ++ v). eapply path_app; eauto. Qed.

Definition closed (h : heap) (P : ptr -> Prop) : Prop :=
  forall p n c q, P p -> hget h p = Some n -> In (c, q) (nedges n) -> P q.

Lemma closed_reach : forall h (P : ptr -> Prop) p q, closed h P -> P p -> reach h p q -> P q.
Proof. intros h P p q C H [w Pa]. induction Pa; auto. apply IHPa. eapply C; eauto. Qed.

Lemma reach_closed : forall h p, closed h (reach h p).
Proof. intros h p q n c r. intros. eapply reach_step; eauto. Qed.

(** Unfoldings only depend on the nodes reachable. *)
Lemma unf_frame_gen : forall h h' (P : ptr -> Prop), closed h P ->
  (forall q, P q -> hget h' q = hget h q) ->
  (forall p t, unf h p t -> P p -> unf h' p t) /\
  (forall es ts, unfs h es ts -> (forall c q, In (c, q) es -> P q) -> unfs h' es ts).
Proof.
  intros h h' P C E. apply unf_unfs_ind.
  - intros p n es NN G S U IH Pp. constructor; auto.
    + rewrite E; auto.
    + apply IH. intros. eapply C; eauto.
  - constructor.
  - intros. constructor.
    + apply H. eapply H1. left; eauto.
    + apply H0. intros. eapply H1. right; eauto.
Qed.

Lemma unf_frame : forall h h' (P : ptr -> Prop) p t, closed h P ->
  (forall q, P q -> hget h' q = hget h q) -> P p -> unf h p t -> unf h' p t.
Proof. intros. eapply unf_frame_gen; eauto. Qed.

Lemma unfs_frame : forall h h' (P : ptr -> Prop) es ts, closed h P ->
  (forall q, P q -> hget h' q = hget h q) -> (forall c q, In (c, q) es -> P q) ->
  unfs h es ts -> unfs h' es ts.
Proof. intros. eapply unf_frame_gen; eauto. Qed.

Lemma path_frame : forall h h' (P : ptr -> Prop) p w q, closed h P ->
  (forall q, P q -> hget h' q = hget h q) -> P p -> path h p w q -> path h' p w q.
Proof.
  intros h h' P p w q C E Pp Pa. induction Pa; [constructor|].
  econstructor; [rewrite E; eauto | eauto |]. apply IHPa. eapply C; eauto.
Qed.

Lemma reach_frame : forall h h' p q, (forall r, reach h p r -> hget h' r = hget h r) ->
  (reach h' p q <-> reach h p q).
Proof.
  intros h h' p q E. split; intros [w Pa].
  - assert (C : closed h' (reach h p)).
    { intros x n c y R G I. rewrite E in G by auto. eapply reach_step; eauto. }
    exists w. eapply path_frame with (h := h') (P := reach h p); eauto.
    + intros. symmetry. auto.
    + apply reach_refl.
  - exists w. eapply path_frame with (h := h) (P := reach h p); eauto using reach_closed, reach_refl.
Qed.

Lemma unf_reach : forall h p q, reach h p q -> forall t, unf h p t ->
  exists t', unf h q t' /\ (t' = t /\ q = p \/ height t' < height t).
Proof.
  intros h p q [w Pa]. induction Pa; intros t U; eauto.
  inversion U; subst. rewrite H in H2. injection H2 as <-.
  destruct (unfs_In _ _ _ _ _ H4 H0) as (t' & I & U').
  destruct (IHPa _ U') as (t2 & U2 & D). exists t2. split; auto. right.
  apply (height_edge _ (nfin n)) in I. destruct D as [[-> _]|D]; lia.
Qed.

Lemma unf_reach_alloc : forall h p q t, unf h p t -> reach h p q -> q <> null /\ exists n, hget h q = Some n.
Proof.
  intros. destruct (unf_reach _ _ _ H0 _ H) as (t' & U & _).
  apply unf_inv in U. destruct U as (n & ? & ? & _). eauto.
Qed.

Lemma reach_proper : forall h p q t, unf h p t -> reach h p q -> q <> p ->
  exists t', unf h q t' /\ height t' < height t.
Proof.
  intros. destruct (unf_reach _ _ _ H0 _ H) as (t' & U & [[-> ->]|D]); [congruence|eauto].
Qed.

(** Words of the unfolding are the accepted suffixes. *)
Lemma path_tree : forall h w p t q n, unf h p t -> path h p w q -> hget h q = Some n -> nfin n = true -> tin t w = true.
Proof.
  induction w as [|c w IH]; intros p t q n U Pa G F; inversion Pa; subst; cbn.
  - inversion U; subst. cbn. congruence.
  - apply unf_inv in U. destruct U as (m & NN & G' & So & Us & _).
    match goal with E : hget h p = Some _ |- _ => rewrite G' in E; injection E as <- end.
    match goal with I : In _ _ |- _ => destruct (unfs_In _ _ _ _ _ Us I) as (t' & I' & U') end.
    rewrite (edge_In_get _ _ _ _ (unfs_sorted _ _ _ Us So) I'). eapply IH; eauto.
Qed.

Lemma tree_path : forall h w p t, unf h p t -> tin t w = true -> accepts_from h p w.
Proof.
  induction w as [|c w IH]; intros p t U E; cbn in E.
  - inversion U; subst. exists p, n. repeat split; auto. constructor.
  - inversion U; subst. cbn in E.
    destruct (edge_get es c) as [t'|] eqn:G; [|discriminate].
    apply edge_get_In in G. destruct (unfs_In_r _ _ _ _ _ H2 G) as (q & I & U').
    destruct (IH _ _ U' E) as (r & m & Pa & Gr & F).
    exists r, m. repeat split; auto. econstructor; eauto.
Qed.

Lemma accepts_tin : forall h p t w, unf h p t -> (accepts_from h p w <-> tin t w = true).
Proof.
  intros. split.
  - intros (q & n & Pa & G & F). eapply path_tree; eauto.
  - intros. eapply tree_path; eauto.
Qed.

(** ** Recursive comparison and hash *)
Definition eq_each (fuel : nat) (h : heap) (b : node) :=
  fix each (es : list (char * ptr)) : res bool :=
    match es with
    | [] => Ok true
    | (c, expected) :: es' =>
        let actual := transition b c in
        if N.eqb actual null then Ok false
        else
          do x <- read h expected;
          do y <- read h actual;
          do e <- node_eq fuel h x y;
          if e then each es' else Ok false
    end.

Lemma node_eq_S : forall fuel h a b, node_eq (S fuel) h a b =
  if negb (Bool.eqb (nfin a) (nfin b)) then Ok false
  else if negb (Nat.eqb (length (nedges a)) (length (nedges b))) then Ok false
  else eq_each fuel h b (nedges a).
Proof. reflexivity. Qed.

Lemma node_eq_ok : forall fuel h a b ta tb, nunf h a ta -> nunf h b tb -> height ta <= fuel ->
  exists r, node_eq fuel h a b = Ok r /\ (r = true <-> ta = tb).
Proof.
  induction fuel as [|fuel IH]; intros h a b ta tb A B H.
  { pose proof (height_pos ta). lia. }
  rewrite node_eq_S.
  destruct ta as [fa tsa], tb as [fb tsb]. pose proof A as (Sa & Ua & Fa). pose proof B as (Sb & Ub & Fb).
  cbn in Ua, Fa, Ub, Fb. subst fa fb.
  destruct (Bool.eqb (nfin a) (nfin b)) eqn:E; cbn.
  2:{ exists false. split; auto. split; [discriminate|]. intros X. injection X as X _.
      rewrite X, Bool.eqb_reflx in E. discriminate. }
  apply Bool.eqb_prop in E.
  destruct (Nat.eqb (length (nedges a)) (length (nedges b))) eqn:L; cbn.
  2:{ exists false. split; auto. split; [discriminate|]. intros X. injection X as _ X.
      apply Nat.eqb_neq in L. apply unfs_length in Ua, Ub. congruence. }
  apply Nat.eqb_eq in L.
  assert (Hs : forall c t, In (c, t) tsa -> height t <= fuel).
  { intros c t I. apply (height_edge _ (nfin a)) in I. lia. }
  assert (G : exists r, eq_each fuel h b (nedges a) = Ok r /\
             (r = true <-> forall c t, In (c, t) tsa -> edge_get tsb c = Some t)).
  { clear L Sa A H. induction Ua as [|c q t es ts U Us IHU].
    - exists true. split; auto. split; auto. intros _ c t [].
    - cbn [eq_each].
      assert (N.eqb (transition b c) null = true \/
              exists y ty, read h (transition b c) = Ok y /\ N.eqb (transition b c) null = false /\
                        edge_get tsb c = Some ty /\ nunf h y ty) as [N|(y & ty & R & N & Gy & Uy)].
      { unfold transition. pose proof (unfs_get _ _ _ c Ub) as X.
        destruct (edge_get (nedges b) c) as [r|] eqn:Gb; [|auto].
        right. destruct X as (ty & Gy & Uy). destruct (unf_read _ _ _ Uy) as (y & R & Hy & Ny).
        exists y, ty. repeat split; auto; try apply Ny.
        apply N.eqb_neq. apply unf_inv in Uy. destruct Uy as (? & ? & _). auto. }
      + rewrite N. exists false. split; auto. split; [discriminate|].
        intros X. specialize (X c t (or_introl eq_refl)).
        unfold transition in N. pose proof (unfs_get _ _ _ c Ub) as Y.
        destruct (edge_get (nedges b) c) as [r|].
        * destruct Y as (ty & Gy & Uy). apply unf_inv in Uy. destruct Uy as (? & Z & _).
          apply N.eqb_eq in N. congruence.
        * congruence.
      + rewrite N. destruct (unf_read _ _ _ U) as (x & Rx & Gx & Nx).
        rewrite Rx, R. cbn.
        destruct (IH h x y t ty Nx Uy) as (r & Er & Hr); [eapply Hs; left; eauto|].
        rewrite Er. cbn. destruct r.
        * destruct IHU as (r' & Er' & Hr'); [intros; eapply Hs; right; eauto|].
          exists r'. split; auto. rewrite Hr'. destruct Hr as [Hr _]. specialize (Hr eq_refl). subst ty.
          split.
          -- intros X c' t' [I|I]; [injection I as <- <-; auto | auto].
          -- intros X c' t' I. apply X. right; auto.
        * exists false. split; auto. split; [discriminate|]. intros X.
          specialize (X c t (or_introl eq_refl)). destruct Hr as [_ Hr].
          assert (t = ty) as Y by congruence. specialize (Hr Y). discriminate. }
  destruct G as (r & Er & Hr). exists r. split; auto. rewrite Hr.
  pose proof (unfs_sorted _ _ _ Ua Sa) as So1. pose proof (unfs_sorted _ _ _ Ub Sb) as So2.
  apply unfs_length in Ua, Ub.
  split.
  - intros X. f_equal; auto. apply edges_ext; auto. intros c.
    destruct (edge_get tsa c) as [t|] eqn:Gc.
    + symmetry. apply X. apply edge_get_In; auto.
    + symmetry. apply edge_get_None. intros t I.
      (* every label of tsb occurs in tsa: same number of distinct labels *)
      assert (incl (map fst tsb) (map fst tsa)) as Inc.
      { apply NoDup_length_incl.
        - clear - So1. unfold esorted in So1. induction So1 as [|[d x] es S IHS F]; cbn; constructor; auto.
          intros I. apply in_map_iff in I. destruct I as ([d' x'] & <- & I).
          rewrite Forall_forall in F. specialize (F _ I). unfold elt in F; cbn in F. lia.
        - rewrite !map_length. lia.
        - intros d I'. apply in_map_iff in I'. destruct I' as ([d' x'] & <- & I').
          apply X in I'. apply edge_get_In in I'. apply in_map_iff. exists (d', x'). auto. }
      assert (In c (map fst tsa)) as J by (apply Inc; apply in_map_iff; exists (c, t); auto).
      apply in_map_iff in J. destruct J as ([c' x] & E' & J). cbn in E'. subst c'.
      rewrite edge_get_None in Gc. eapply Gc; eauto.
  - intros X. injection X as _ X. subst tsb. intros c t I. apply edge_In_get; auto.
Qed.

Definition hash_each (fuel : nat) (h : heap) :=
  fix each (es : list (char * ptr)) (code : N) : res N :=
    match es with
    | [] => Ok code
    | (c, target) :: es' =>
        let code := murmur_key (uchar c) code in
        do t <- read h target;
        do k <- node_hash fuel h t;
        each es' (murmur_key k code)
    end.

Lemma node_hash_S : forall fuel h n, node_hash (S fuel) h n =
  do code <- hash_each fuel h (nedges n) DEADBEEF;
  Ok (murmur_key (if nfin n then 1%N else 0%N) code).
Proof. reflexivity. Qed.

Lemma node_hash_ok : forall fuel h n t, nunf h n t -> height t <= fuel ->
  node_hash fuel h n = Ok (thash t).
Proof.
  induction fuel as [|fuel IH]; intros h n t U H.
  { pose proof (height_pos t). lia. }
  rewrite node_hash_S. destruct t as [f ts]. destruct U as (S & U & F). cbn in U, F. subst f.
  assert (Hs : forall c t, In (c, t) ts -> height t <= fuel).
  { intros c t I. apply (height_edge _ (nfin n)) in I. lia. }
  cbn [thash].
  assert (G : forall code, hash_each fuel h (nedges n) code =
    Ok (fold_left (fun code e => murmur_key (thash (snd e)) (murmur_key (uchar (fst e)) code)) ts code)).
  { clear S H. induction U as [|c q t es ts U Us IHU]; intros code; cbn [hash_each fold_left]; auto.
    destruct (unf_read _ _ _ U) as (x & Rx & Gx & Nx). rewrite Rx. cbn.
    rewrite (IH h x t Nx) by (eapply Hs; left; eauto). cbn. apply IHU. intros. eapply Hs; right; eauto. }
  rewrite G. auto.
Qed.

(** ** all_nodes and deletion *)
Lemma set_mem_In : forall p s, set_mem p s = true <-> In p s.
Proof.
  intros. unfold set_mem. rewrite existsb_exists. split.
  - intros (x & I & E). apply N.eqb_eq in E. subst. auto.
  - intros. exists p. split; auto. apply N.eqb_refl.
Qed.

Lemma set_insert_In : forall p q s, In q (set_insert p s) <-> q = p \/ In q s.
Proof.
  intros. unfold set_insert. destruct (set_mem p s) eqn:E.
  - apply set_mem_In in E. split; [auto|]. intros [->|?]; auto.
  - rewrite in_app_iff. cbn. intuition congruence.
Qed.

Lemma set_insert_NoDup : forall p s, NoDup s -> NoDup (set_insert p s).
Proof.
  intros. unfold set_insert. destruct (set_mem p s) eqn:E; auto.
  assert (~ In p s) by (rewrite <- set_mem_In; congruence).
  clear E. induction H; cbn; [repeat constructor; auto|].
  constructor.
  - rewrite in_app_iff. cbn in *. intuition congruence.
  - apply IHNoDup. cbn in H0. tauto.
Qed.

Definition sizes (ts : list tree) : nat := fold_right (fun t m => tsize t + m) 0 ts.

Lemma sizes_app : forall a b, sizes (a ++ b) = sizes a + sizes b.
Proof. induction a; intros; cbn; auto. fold (sizes (a0 ++ b)). rewrite IHa. fold (sizes a0). lia. Qed.

Lemma sizes_edges : forall f es, tsize (T f es) = S (sizes (map snd es)).
Proof. induction es as [|[c t] es IH]; cbn in *; auto. Qed.

Lemma all_nodes_loop_ok : forall fuel h ps ts nodes, Forall2 (unf h) ps ts -> sizes ts < fuel ->
  NoDup nodes ->
  exists out, all_nodes_loop fuel h ps nodes = Ok out /\ NoDup out /\
    forall p, In p out <-> In p nodes \/ exists q, In q ps /\ reach h q p.
Proof.
  induction fuel as [|fuel IH]; intros h ps ts nodes U L ND; [lia|].
  destruct U as [|p t ps ts Up U]; cbn [all_nodes_loop].
  - exists nodes. split; [auto|]. split; [auto|]. intros p. split; [auto|]. intros [?|(q & [] & _)]; auto.
  - destruct (unf_read _ _ _ Up) as (n & R & G & Sn & Un & Fn). rewrite R. cbn.
    destruct (IH h (ps ++ map snd (nedges n)) (ts ++ map snd (tedges t)) (set_insert p nodes))
      as (out & E & ND' & I).
    + apply Forall2_app; auto. clear - Un. induction Un; cbn; constructor; auto.
    + destruct t as [f es]. cbn [sizes fold_right] in L. rewrite sizes_edges in L.
      rewrite sizes_app. cbn [tedges]. change (fold_right (fun t m => tsize t + m) 0 ts) with (sizes ts) in L. lia.
    + apply set_insert_NoDup; auto.
    + exists out. split; [auto|]. split; [auto|]. intros q. rewrite I, set_insert_In.
      split.
      * intros [[->|X]|(r & X & Y)].
        -- right. exists p. split; [left; auto|apply reach_refl].
        -- auto.
        -- right. apply in_app_iff in X. destruct X as [X|X].
           ++ exists r. split; [right; auto|auto].
           ++ apply in_map_iff in X. destruct X as ([c r'] & <- & X).
              exists p. split; [left; auto|]. eapply reach_cons; eauto.
      * intros [X|(r & [->|X] & Y)].
        -- auto.
        -- destruct Y as [w Pa]. inversion Pa; subst.
           ++ auto.
           ++ right. rewrite G in H. injection H as <-. exists q0. split; [|exists w0; auto].
              apply in_app_iff. right. apply in_map_iff. exists (c, q0). auto.
        -- right. exists r. split; [apply in_app_iff; auto|auto].
Qed.

Lemma all_nodes_ok : forall fuel h d t, unf h (d_root d) t -> tsize t + 1 < fuel ->
  exists out, all_nodes fuel h d = Ok out /\ NoDup out /\
    forall p, In p out <-> reach h (d_root d) p.
Proof.
  intros. unfold all_nodes.
  destruct (all_nodes_loop_ok fuel h [d_root d] [t] []) as (out & E & ND & I).
  - repeat constructor; auto.
  - cbn. lia.
  - constructor.
  - exists out. split; [auto|]. split; [auto|]. intros p. rewrite I. split.
    + intros [[]|(q & [<-|[]] & R)]; auto.
    + intros R. right. exists (d_root d). split; [left; auto|auto].
Qed.

Lemma delete_all_ok : forall ps h, NoDup ps -> (forall p, In p ps -> p <> null /\ allocated h p) ->
  exists h', delete_all h ps = Ok h' /\
    (forall p, In p ps -> hget h' p = None) /\ (forall p, ~ In p ps -> hget h' p = hget h p).
Proof.
  induction ps as [|p ps IH]; intros h ND A; cbn.
  - exists h. repeat split; auto. intros p [].
  - inversion ND; subst. unfold delete at 1.
    destruct (A p (or_introl eq_refl)) as [Np Al]. apply N.eqb_neq in Np. rewrite Np.
    unfold allocated in Al. destruct (hget h p) as [n|] eqn:G; [|congruence]. cbn.
    destruct (IH (hdel h p)) as (h' & E & D1 & D2); auto.
    + intros q I. split; [apply A; right; auto|]. unfold allocated. rewrite hget_hdel.
      destruct (N.eqb q p) eqn:E; [apply N.eqb_eq in E; congruence|]. apply A; right; auto.
    + exists h'. split; auto. split.
      * intros q [->|I]; auto. rewrite D2 by auto. rewrite hget_hdel, N.eqb_refl. auto.
      * intros q NI. cbn in NI. rewrite D2 by tauto. rewrite hget_hdel.
        destruct (N.eqb q p) eqn:E2; auto. apply N.eqb_eq in E2. subst. tauto.
Qed.

Lemma destroy_dawg_ok : forall fuel h d t, unf h (d_root d) t -> tsize t + 1 < fuel ->
  exists h', destroy_dawg fuel h d = Ok h' /\
    (forall p, reach h (d_root d) p -> hget h' p = None) /\
    (forall p, ~ reach h (d_root d) p -> hget h' p = hget h p).
Proof.
  intros fuel h d t U L. unfold destroy_dawg.
  destruct (all_nodes_ok _ _ _ _ U L) as (out & E & ND & I). rewrite E. cbn.
  destruct (delete_all_ok out h ND) as (h' & E' & D1 & D2).
  - intros p J. apply I in J. destruct (unf_reach_alloc _ _ _ _ U J) as (? & n & G).
    split; auto. unfold allocated. congruence.
  - exists h'. split; auto. split; intros; [apply D1, I; auto | apply D2; rewrite I; auto].
Qed.

(** ** contains *)
Lemma contains_loop_ok : forall w h p t i, unf h p t -> (i + N.of_nat (length w) <= 2147483647)%N ->
  exists q, contains_loop h p i w = Ok q /\
    ((q = null /\ tin t w = false) \/ (exists t', unf h q t' /\ tin t w = tfin t')).
Proof.
  induction w as [|c w IH]; intros h p t i U B; cbn [contains_loop].
  - exists p. split; auto. right. exists t. auto.
  - destruct (unf_read _ _ _ U) as (n & R & G & Sn & Un & Fn).
    pose proof (unf_inv _ _ _ U) as (_ & NN & _). apply N.eqb_neq in NN. rewrite NN, R. cbn [rbind].
    cbn [length] in B. replace (i =? 2147483647)%N with false by (symmetry; apply N.eqb_neq; lia).
    unfold transition. pose proof (unfs_get _ _ _ c Un) as X. cbn [tin].
    destruct (edge_get (nedges n) c) as [q|].
    + destruct X as (t' & Gt & U'). rewrite Gt. apply IH; auto. lia.
    + rewrite X. exists null. split; auto. destruct w; auto.
Qed.

Lemma contains_ok : forall h d t w, unf h (d_root d) t -> (N.of_nat (length w) <= 2147483647)%N ->
  contains h d w = Ok (tin t w).
Proof.
  intros h d t w U B. unfold contains.
  destruct (contains_loop_ok w h _ t 0%N U) as (q & E & D); [lia|]. rewrite E. cbn.
  destruct D as [[-> F]|(t' & U' & F)].
  - rewrite F. auto.
  - destruct (unf_read _ _ _ U') as (n & R & G & Sn & Un & Fn).
    pose proof (unf_inv _ _ _ U') as (_ & NN & _). apply N.eqb_neq in NN. rewrite NN, R. cbn.
    rewrite F, Fn. auto.
Qed.

(** * BuildCostProofs: how often building a dictionary hashes nodes. *)
From Coq Require Import Sorting.Sorted Sorting.Permutation.
From Verif Require Import Base Spec ModelHash ModelDawg ModelBuildCost SpecDawg SpecCost TreeProofs HeapProofs BuildProofs BuildProofs2 DawgProofs
  IterProofs BoundProofs DestroyProofs.
Local Open Scope nat_scope.

(** ** The functions that count are the functions that do not *)
Definition c_hash_each (fuel : nat) (h : heap) :=
  fix each (es : list (char * ptr)) (code : N) (calls : nat) : res (N * nat) :=
    match es with
    | [] => Ok (code, calls)
    | (c, target) :: es' =>
        let code := murmur_key (uchar c) code in
        do t <- read h target;
        do (k, more) <- c_node_hash fuel h t;
        each es' (murmur_key k code) (calls + more)
    end.

Lemma c_node_hash_S : forall fuel h n, c_node_hash (S fuel) h n =
  do (code, calls) <- c_hash_each fuel h (nedges n) DEADBEEF 0;
  Ok (murmur_key (if nfin n then 1%N else 0%N) code, S calls).
Proof. reflexivity. Qed.

Lemma c_node_hash_ok : forall fuel h n t, nunf h n t -> height t <= fuel ->
  c_node_hash fuel h n = Ok (thash t, tsize t).
Proof.
  induction fuel as [|fuel IH]; intros h n t U H.
  { pose proof (height_pos t). lia. }
  rewrite c_node_hash_S. destruct t as [f ts]. destruct U as (So & U & F). cbn in U, F. subst f.
  assert (Hs : forall c t, In (c, t) ts -> height t <= fuel).
  { intros c t I. apply (height_edge _ (nfin n)) in I. lia. }
  cbn [thash tsize].
  assert (G : forall code calls, c_hash_each fuel h (nedges n) code calls =
    Ok (fold_left (fun code e => murmur_key (thash (snd e)) (murmur_key (uchar (fst e)) code)) ts code,
        calls + fold_right (fun e m => tsize (snd e) + m) 0 ts)).
  { clear So H. induction U as [|c q t es ts U Us IHU]; intros code calls; cbn [c_hash_each fold_left fold_right]; [now rewrite Nat.add_0_r|].
    destruct (unf_read _ _ _ U) as (x & Rx & Gx & Nx). rewrite Rx. cbn [rbind].
    rewrite (IH h x t Nx) by (eapply Hs; left; eauto). cbn [rbind].
    rewrite IHU by (intros; eapply Hs; right; eauto). cbn [fst snd]. do 2 f_equal. lia. }
  rewrite G. reflexivity.
Qed.

(** ** Weights *)
(** The sum of the sizes of all subtrees but the tree itself. *)
Fixpoint weight (t : tree) : nat :=
  match t with T _ es => fold_right (fun e m => tsize (snd e) + weight (snd e) + m) 0 es end.
Definition eweight (es : list (char * tree)) : nat := fold_right (fun e m => tsize (snd e) + weight (snd e) + m) 0 es.

(** The same, without the edges that lead along [w]. *)
Definition others (c : char) (es : list (char * tree)) := filter (fun e => negb (ceqb c (fst e))) es.
Fixpoint off (t : tree) (w : str) : nat :=
  match w with
  | [] => weight t
  | c :: w' => eweight (others c (tedges t)) + off (tget t c) w'
  end.
Fixpoint sub (t : tree) (w : str) : tree := match w with [] => t | c :: w' => sub (tget t c) w' end.

Lemma off_leaf : forall w, off leaf w = 0.
Proof. induction w as [|c w IH]; [reflexivity|]. cbn. exact IH. Qed.

Lemma others_none : forall c (es : list (char * tree)), edge_get es c = None -> others c es = es.
Proof.
  intros c es. unfold others. induction es as [|[d t] es IH]; cbn; [reflexivity|]. destruct (ceqb c d); [discriminate|]. cbn. intros E. now rewrite IH.
Qed.

Lemma others_set : forall c (t : tree) es, others c (edge_set es c t) = others c es.
Proof.
  intros c t. unfold others. induction es as [|[d x] es IH]; cbn [edge_set filter fst]; [now rewrite ceqb_refl|].
  destruct (ceqb c d) eqn:E; cbn [filter fst negb]; [rewrite ceqb_refl; reflexivity|].
  destruct (schar c <? schar d)%Z; cbn [filter fst]; [rewrite ceqb_refl, E; reflexivity|]. rewrite E. cbn. now rewrite IH.
Qed.

Lemma others_weight : forall c es t, esorted es -> edge_get es c = Some t -> eweight es = eweight (others c es) + tsize t + weight t.
Proof.
  intros c es t. induction es as [|[d x] es IH]; intros So G; cbn [edge_get] in G; [discriminate|].
  inversion So as [|? ? So' F]; subst. cbn [others filter fst]. destruct (ceqb c d) eqn:E.
  - injection G as ->. apply ceqb_true in E. subst d. cbn [negb].
    assert (N : edge_get es c = None).
    { apply edge_get_None. intros q I. rewrite Forall_forall in F. apply F in I. unfold elt in I; cbn in I; lia. }
    change (filter (fun e => negb (ceqb c (fst e))) es) with (others c es). rewrite (others_none c es N). cbn [eweight fold_right snd]. fold (eweight es). lia.
  - cbn [negb eweight fold_right snd]. change (filter (fun e => negb (ceqb c (fst e))) es) with (others c es).
    change (fold_right (fun e m => tsize (snd e) + weight (snd e) + m) 0 es) with (eweight es).
    change (fold_right (fun e m => tsize (snd e) + weight (snd e) + m) 0 (others c es)) with (eweight (others c es)).
    rewrite (IH So' G). lia.
Qed.

Lemma off_tadd : forall w t, off (tadd t w) w = off t w.
Proof.
  induction w as [|c w IH]; intros [f es]; [reflexivity|]. cbn [tadd off tedges tfin]. rewrite others_set. f_equal.
  unfold tget at 1. cbn [tedges]. rewrite edge_get_set, ceqb_refl. apply IH.
Qed.

Lemma off_app : forall u v t, off (sub t u) v = weight (sub t u) -> off t (u ++ v) = off t u.
Proof.
  induction u as [|c u IH]; intros v t H; [exact H|]. cbn [app off]. f_equal. apply IH. exact H.
Qed.

Lemma off_absent : forall t c w, edge_get (tedges t) c = None -> off t (c :: w) = weight t.
Proof.
  intros [f es] c w G. cbn [off tedges] in *. rewrite (others_none _ _ G). unfold tget. cbn [tedges]. rewrite G, off_leaf. cbn [weight]. fold (eweight es). lia.
Qed.

(** One more step on the way: the subtree it leads to is counted no more. *)
Lemma off_snoc : forall w c t t', tsorted t -> edge_get (tedges (sub t w)) c = Some t' ->
  off t w = off t (w ++ [c]) + tsize t'.
Proof.
  induction w as [|d w IH]; intros c [f es] t' So G.
  - cbn [sub tedges app off] in *. inversion So; subst. unfold tget. cbn [tedges]. rewrite G. cbn [weight].
    change (eweight es = eweight (others c es) + weight t' + tsize t'). rewrite (others_weight c es t'); auto. lia.
  - cbn [sub app off] in *. rewrite (IH c (tget (T f es) d) t'); auto; [lia|]. unfold tget. cbn [tedges].
    destruct (edge_get es d) as [x|] eqn:E; [|apply tsorted_leaf]. inversion So as [? ? _ Fo]; subst.
    rewrite Forall_forall in Fo. apply edge_get_In in E. apply (Fo _ E).
Qed.

Lemma sub_fill : forall frs t, sub (fill frs t) (flabels frs) = t.
Proof.
  induction frs as [|[[f es] c] frs IH]; intros t; cbn [fill]; [reflexivity|]. unfold flabels. cbn [map snd rev].
  assert (A : forall u t c, sub t (u ++ [c]) = tget (sub t u) c) by (induction u; cbn; auto).
  rewrite A. unfold flabels in IH. rewrite IH. unfold tget. cbn [tedges]. now rewrite edge_get_set, ceqb_refl.
Qed.

(** ** One iteration of minimize *)
Lemma sub_snoc : forall u t c, sub t (u ++ [c]) = tget (sub t u) c.
Proof. induction u; cbn; auto. Qed.

Lemma c_minimize_step : forall B h0 h root c s t un m fl frs t0,
  inv B h0 h root (Work (Trans c s t :: un) m fl) frs t0 -> height (fill frs t0) <= B ->
  exists h' m' frs' t0' n' calls,
    (forall fuel k, B <= fuel ->
      minimize_loop (S k) fuel h (Work (Trans c s t :: un) m fl) = minimize_loop k fuel h' (Work un m' fl)) /\
    (forall fuel k, B <= fuel ->
      c_minimize_loop (S k) fuel h (Work (Trans c s t :: un) m fl) =
      do (h2, w2, more) <- c_minimize_loop k fuel h' (Work un m' fl); Ok (h2, w2, calls + more)) /\
    inv B h0 h' root (Work un m' fl) frs' t0' /\
    fill frs' t0' = fill frs t0 /\
    hget h' (top root un) = Some n' /\
    (forall d q, In (d, q) (nedges n') -> (uchar d <= uchar c)%N) /\
    edge_get (tedges t0') c = Some t0 /\
    (forall e r, In e m -> unf h (e_ptr e) r -> unf h' (e_ptr e) r) /\
    ((m' = m /\ calls = tsize t0 /\ exists e, In e m /\ unf h (e_ptr e) t0) \/
     (exists e, m' = m ++ [e] /\ calls = 2 * tsize t0 /\ unf h' (e_ptr e) t0 /\ forall e', In e' m -> ~ unf h (e_ptr e') t0)).
Proof.
  intros B h0 h root c s t un m fl frs t0 I Ht.
  assert (Ht0 : height t0 <= B) by (pose proof (height_fill frs t0); lia).
  destruct (minimize_step_keeps B h0 h root c s t un m fl frs t0 I Ht0) as (h' & m' & frs' & t0' & n' & E & I' & Fl & G & Le & Kp & _).
  cbn [w_minimized] in Kp.
  pose proof (iv_frames _ _ _ _ _ _ _ I) as F. cbn [w_unchecked] in F.
  assert (Es : s = top root un) by (inversion F; auto). subst s.
  pose proof (iv_top _ _ _ _ _ _ _ I) as Ut. cbn [w_unchecked top t_target] in Ut.
  destruct (unf_inv _ _ _ Ut) as (nt & NNt & Gt & Nt).
  pose proof (iv_min _ _ _ _ _ _ _ I) as M. cbn [w_minimized] in M.
  assert (Ment : forall e, In e m -> exists te, nunf h (e_key e) te /\ e_hash e = thash te /\ e_ptr e <> null).
  { intros e J. destruct (mi_ent _ _ _ M e J) as (? & _ & te & ? & ? & _). eauto. }
  destruct (map_find_ok B h nt t0 m Nt Ht0 Ment) as (p & Ep & D).
  assert (Ef : forall fuel, B <= fuel -> minimized_node fuel h m t = Ok p).
  { intros fuel Hf. unfold minimized_node. rewrite (read_ok _ _ _ NNt Gt). cbn [rbind].
    rewrite (node_hash_ok fuel h nt t0 Nt) by lia. cbn [rbind]. auto. }
  assert (Ec : forall fuel, B <= fuel -> c_minimized_node fuel h m t = Ok (p, tsize t0)).
  { intros fuel Hf. unfold c_minimized_node. rewrite (read_ok _ _ _ NNt Gt). cbn [rbind].
    rewrite (c_node_hash_ok fuel h nt t0 Nt) by lia. cbn [rbind]. rewrite Ep by auto. reflexivity. }
  assert (Fr : forall e r, In e m -> unf h (e_ptr e) r -> unf h' (e_ptr e) r).
  { intros e r J U. eapply unf_frame with (h := h) (P := fun p => In p (mptrs m)); [apply (mi_closed _ _ _ M)| | |exact U].
    - intros q K. apply Kp. exact K.
    - apply in_map. exact J. }
  (* the tree below the new edge *)
  assert (Tg : tget t0' c = t0).
  { pose proof (sub_fill frs t0) as S0. pose proof (sub_fill frs' t0') as S1. rewrite Fl in S1.
    rewrite (frames_labels _ _ _ _ F) in S0. rewrite (frames_labels _ _ _ _ (iv_frames _ _ _ _ _ _ _ I')) in S1.
    cbn [w_unchecked] in S1. unfold labels in *. cbn [map t_label rev] in S0. rewrite sub_snoc, S1 in S0. exact S0. }
  assert (Eg : forall x, add_edge h (top root un) c x = Ok h' ->
     edge_get (nedges n') c = Some x /\ edge_get (tedges t0') c = Some t0 /\ unf h' x t0).
  { intros x A. unfold add_edge in A. destruct (read h (top root un)) as [ns| |]; try discriminate. cbn [rbind] in A.
    destruct (delete h (transition ns c)) as [hd| |]; try discriminate. cbn [rbind] in A.
    destruct (read hd (top root un)) as [nd| |]; try discriminate. cbn [rbind] in A.
    injection A as A. rewrite <- A in G. rewrite hget_hset_same in G. injection G as <-. cbn [nedges].
    rewrite edge_get_set, ceqb_refl. split; [reflexivity|].
    pose proof (iv_top _ _ _ _ _ _ _ I') as U'. cbn [w_unchecked] in U'.
    destruct (unf_inv _ _ _ U') as (n2 & _ & G2 & _ & Us & _). rewrite <- A, hget_hset_same in G2. injection G2 as <-.
    pose proof (unfs_get _ _ _ c Us) as X. cbn [nedges] in X. rewrite edge_get_set, ceqb_refl in X.
    destruct X as (te & Gte & Ute). unfold tget in Tg. rewrite Gte in Tg. subst te. auto. }
  destruct (N.eqb p null) eqn:Np.
  - (* new *)
    assert (K : add_edge h (top root un) c t = Ok h' /\ forall fuel, B <= fuel -> map_assign fuel h' m t = Ok m').
    { assert (K : forall fuel, B <= fuel -> add_edge h (top root un) c t = Ok h' /\ map_assign fuel h' m t = Ok m').
      { intros fuel Hf. pose proof (E fuel 0 Hf) as X. cbn [minimize_loop w_unchecked w_minimized w_floating] in X.
        rewrite Ef in X by auto. cbn [rbind] in X. rewrite Np in X.
        destruct (add_edge h (top root un) c t) as [h1| |]; try discriminate. cbn [rbind] in X.
        destruct (map_assign fuel h1 m t) as [m1| |] eqn:Am; try discriminate. cbn [rbind] in X.
        injection X as -> ->. auto. }
      split; [apply (K B (le_n _))|]. intros fuel Hf. apply (K fuel Hf). }
    destruct K as (Ka & Km). destruct (Eg t Ka) as (_ & Et & Ut').
    assert (D0 : forall e, In e m -> ~ nunf h (e_key e) t0).
    { destruct D as [[_ D]|(e & J & -> & _)]; [exact D|]. destruct (Ment e J) as (_ & _ & _ & X). apply N.eqb_eq in Np. contradiction. }
    assert (Nw : m' = m ++ [Entry (thash t0) (match hget h' t with Some n => n | None => Node false [] end) t]).
    { destruct (unf_inv _ _ _ Ut') as (n2 & NN2 & G2 & N2). pose proof (Km B (le_n _)) as X. unfold map_assign in X.
      rewrite (read_ok _ _ _ NN2 G2) in X. cbn [rbind] in X. rewrite (node_hash_ok B h' n2 t0 N2) in X by lia. cbn [rbind] in X.
      rewrite (map_replace_new B h' n2 t0 t m N2) in X; [|lia| | |lia].
      - rewrite G2. now injection X as <-.
      - intros e J. destruct (mi_ent _ _ _ M e J) as (? & Ge & te & Ne & ? & _). exists te. split; [|auto].
        pose proof (Fr e te J (unf_intro _ _ _ _ H Ge Ne)) as Ue. destruct (unf_inv _ _ _ Ue) as (n3 & _ & G3 & N3).
        rewrite (proj2 (Kp _ (in_map e_ptr _ _ J))), Ge in G3. now injection G3 as <-.
      - intros e J Nu. destruct (mi_ent _ _ _ M e J) as (? & Ge & te & Ne & ? & _).
        pose proof (Fr e te J (unf_intro _ _ _ _ H Ge Ne)) as Ue. destruct (unf_inv _ _ _ Ue) as (n3 & _ & G3 & N3).
        rewrite (proj2 (Kp _ (in_map e_ptr _ _ J))), Ge in G3. injection G3 as <-.
        rewrite (nunf_det _ _ _ _ N3 Nu) in Ne. exact (D0 e J Ne). }
    exists h', m', frs', t0', n', (2 * tsize t0). split; [exact E|]. split; [|split; [exact I'|split; [exact Fl|split; [exact G|split; [exact Le|split; [exact Et|split; [exact Fr|]]]]]]].
    2: { right. eexists. split; [exact Nw|]. split; [reflexivity|]. split; [exact Ut'|]. intros e J U.
         destruct (mi_ent _ _ _ M e J) as (NN & Ge & _). destruct (unf_inv _ _ _ U) as (n3 & _ & G3 & N3). rewrite Ge in G3. injection G3 as <-.
         exact (D0 e J N3). }
    intros fuel k Hf. cbn [c_minimize_loop w_unchecked w_minimized w_floating]. rewrite Ec by auto. cbn [rbind]. rewrite Np, Ka. cbn [rbind].
    destruct (unf_inv _ _ _ Ut') as (n2 & NN2 & G2 & N2). specialize (Km fuel Hf). unfold map_assign in Km. unfold c_map_assign.
    rewrite (read_ok _ _ _ NN2 G2) in *. cbn [rbind] in *.
    rewrite (node_hash_ok fuel h' n2 t0 N2) in Km by lia. rewrite (c_node_hash_ok fuel h' n2 t0 N2) by lia. cbn [rbind] in *.
    rewrite Km. cbn [rbind]. destruct (c_minimize_loop k fuel h' (Work un m' fl)) as [[[h2 w2] more]| |]; cbn [rbind]; try reflexivity.
    do 2 f_equal. lia.
  - (* known *)
    assert (K : add_edge h (top root un) c p = Ok h' /\ m' = m).
    { pose proof (E B 0 (le_n _)) as X. cbn [minimize_loop w_unchecked w_minimized w_floating] in X.
      rewrite Ef in X by auto. cbn [rbind] in X. rewrite Np in X.
      destruct (add_edge h (top root un) c p) as [h1| |]; try discriminate. cbn [rbind] in X. injection X as -> ->. auto. }
    destruct K as (Ka & ->). destruct (Eg p Ka) as (_ & Et & _).
    exists h', m, frs', t0', n', (tsize t0). split; [exact E|]. split; [|split; [exact I'|split; [exact Fl|split; [exact G|split; [exact Le|split; [exact Et|split; [exact Fr|]]]]]]].
    2: { left. split; [reflexivity|]. split; [reflexivity|]. destruct D as [[-> _]|(e & J & -> & Ne)]; [discriminate|].
         exists e. split; [exact J|]. destruct (mi_ent _ _ _ M e J) as (NN & Ge & _). eapply unf_intro; eauto. }
    intros fuel k Hf. cbn [c_minimize_loop w_unchecked w_minimized w_floating]. rewrite Ec by auto. cbn [rbind]. rewrite Np, Ka. cbn [rbind].
    destruct (c_minimize_loop k fuel h' (Work un m fl)) as [[[h2 w2] more]| |]; reflexivity.
Qed.

(** The trees of the registered nodes. *)
Definition registered (h : heap) (m : list entry) (R : list tree) : Prop :=
  Forall2 (fun e r => unf h (e_ptr e) r) m R /\ NoDup R.

(** [w] leads somewhere. *)
Fixpoint has (t : tree) (w : str) : Prop :=
  match w with
  | [] => True
  | c :: w' => match edge_get (tedges t) c with Some t' => has t' w' | None => False end
  end.

(** They are subtrees that are not on the way [v] to the last node. *)
Definition settled (t : tree) (v : str) (R : list tree) : Prop :=
  forall r, In r R -> exists w, has t w /\ sub t w = r /\ forall u, v <> w ++ u.

Lemma registered_frame : forall h h' m R, Forall2 (fun e r => unf h (e_ptr e) r) m R ->
  (forall e r, In e m -> unf h (e_ptr e) r -> unf h' (e_ptr e) r) -> Forall2 (fun e r => unf h' (e_ptr e) r) m R.
Proof.
  intros h h' m R F. induction F as [|e r m R U F IH]; intros H; constructor; [apply H; [now left|exact U]|]. apply IH. intros. apply H; auto. now right.
Qed.

Lemma registered_snoc : forall h h' m R e t, registered h m R ->
  (forall e r, In e m -> unf h (e_ptr e) r -> unf h' (e_ptr e) r) -> unf h' (e_ptr e) t ->
  (forall e', In e' m -> ~ unf h (e_ptr e') t) -> registered h' (m ++ [e]) (R ++ [t]).
Proof.
  intros h h' m R e t [F ND] Fr U N. split.
  - apply Forall2_app; [eapply registered_frame; eauto|]. constructor; [exact U|constructor].
  - apply (Permutation_NoDup (Permutation_cons_append R t)). constructor; [|exact ND]. clear -F N. intros J. induction F as [|x r m R U F IH]; [destruct J|].
    destruct J as [->|J]; [apply (N x); auto; now left|]. apply IH; auto. intros. apply N. now right.
Qed.

Lemma has_app : forall u v t, has t (u ++ v) <-> has t u /\ has (sub t u) v.
Proof.
  induction u as [|c u IH]; intros v t; cbn [app has sub]; [tauto|]. unfold tget. destruct (edge_get (tedges t) c); [apply IH|tauto].
Qed.

Lemma settled_shorter : forall t v c R, settled t (v ++ [c]) R -> settled t v R.
Proof.
  intros t v c R St r J. destruct (St r J) as (w & A & B & N). exists w. split; [exact A|]. split; [exact B|].
  intros u E. apply (N (u ++ [c])). now rewrite E, app_assoc.
Qed.

Lemma settled_snoc : forall t v c R t0, settled t (v ++ [c]) R -> has t v -> edge_get (tedges (sub t v)) c = Some t0 ->
  settled t v (R ++ [t0]).
Proof.
  intros t v c R t0 St Hv G r J. apply in_app_iff in J. destruct J as [J|[<-|[]]]; [exact (settled_shorter _ _ _ _ St r J)|].
  exists (v ++ [c]). split; [apply has_app; split; [exact Hv|]; cbn; now rewrite G|]. split.
  - rewrite sub_snoc. unfold tget. now rewrite G.
  - intros u E. apply (f_equal (@length _)) in E. rewrite !app_length in E. cbn in E. lia.
Qed.

Lemma has_fill : forall frs t, has (fill frs t) (flabels frs).
Proof.
  induction frs as [|[[f es] c] frs IH]; intros t; [exact Logic.I|]. cbn [fill]. unfold flabels in *. cbn [map snd rev].
  apply has_app. split; [apply IH|]. pose proof (sub_fill frs (T f (edge_set es c t))) as S. unfold flabels in S. rewrite S.
  cbn [has tedges]. now rewrite edge_get_set, ceqb_refl.
Qed.

Lemma fill_has : forall frs t frs' t' v, fill frs' t' = fill frs t -> flabels frs' = v -> has (fill frs t) v.
Proof. intros frs t frs' t' v <- <-. apply has_fill. Qed.

(** The loop: the calls are between once and twice the weight that becomes
    known. *)
Lemma c_minimize_loop_ok : forall k B h0 h root w frs t0,
  inv B h0 h root w frs t0 -> height (fill frs t0) <= B -> k <= length (w_unchecked w) -> tsorted (fill frs t0) ->
  exists h' w' calls,
    (forall fuel, B <= fuel -> minimize_loop k fuel h w = Ok (h', w')) /\
    (forall fuel, B <= fuel -> c_minimize_loop k fuel h w = Ok (h', w', calls)) /\
    exists extra, off (fill frs t0) (labels (skipn k (w_unchecked w))) = off (fill frs t0) (labels (w_unchecked w)) + extra /\
      extra <= calls <= 2 * extra /\
      forall R, registered h (w_minimized w) R -> settled (fill frs t0) (labels (w_unchecked w)) R ->
        exists R', registered h' (w_minimized w') R' /\ settled (fill frs t0) (labels (skipn k (w_unchecked w))) R' /\
          calls + sizes R = extra + sizes R'.
Proof.
  induction k as [|k IH]; intros B h0 h root w frs t0 I Ht Lk So.
  - exists h, w, 0. split; [reflexivity|]. split; [reflexivity|]. exists 0. cbn [skipn]. split; [lia|]. split; [lia|]. eauto.
  - destruct w as [[|[c s t] un] m fl]; cbn [w_unchecked length] in *; [lia|].
    destruct (c_minimize_step B h0 h root c s t un m fl frs t0 I Ht)
      as (h1 & m1 & frs1 & t1 & n1 & calls1 & E & Ec & I1 & Fl & _ & _ & Et & Fr & Lc).
    destruct (IH B h0 h1 root (Work un m1 fl) frs1 t1 I1) as (h2 & w2 & calls2 & E2 & Ec2 & extra & X & Lx & Rg); try (rewrite Fl; auto).
    { cbn. lia. }
    cbn [w_unchecked] in X. rewrite Fl in X.
    exists h2, w2, (calls1 + calls2). split; [intros; rewrite E; auto|]. split; [intros; rewrite Ec, Ec2 by auto; reflexivity|].
    assert (Et' : edge_get (tedges (sub (fill frs t0) (labels un))) c = Some t0).
    { pose proof (sub_fill frs1 t1) as S1. rewrite Fl in S1. rewrite (frames_labels _ _ _ _ (iv_frames _ _ _ _ _ _ _ I1)) in S1.
      cbn [w_unchecked] in S1. rewrite S1. exact Et. }
    assert (Lb : labels (Trans c s t :: un) = labels un ++ [c]) by reflexivity.
    exists (tsize t0 + extra). split; [|split; [destruct Lc as [(_ & -> & _)|(e & _ & -> & _)]; lia|]].
    2: { intros R Rm St. cbn [w_unchecked w_minimized] in *. rewrite Fl in Rg. rewrite Lb in St. destruct Lc as [(-> & -> & _)|(e & -> & -> & Ue & Nw)].
         - destruct (Rg R) as (R' & A1 & A2 & A3).
           + split; [|apply Rm]. eapply registered_frame; [exact (proj1 Rm)|exact Fr].
           + exact (settled_shorter _ _ _ _ St).
           + exists R'. split; [exact A1|]. split; [exact A2|]. lia.
         - destruct (Rg (R ++ [t0])) as (R' & A1 & A2 & A3).
           + apply registered_snoc with (h := h); assumption.
           + apply (settled_snoc _ _ c); [exact St|exact (fill_has _ _ _ _ _ Fl (frames_labels _ _ _ _ (iv_frames _ _ _ _ _ _ _ I1)))|exact Et'].
           + exists R'. split; [exact A1|]. split; [exact A2|]. rewrite sizes_app in A3. cbn [sizes fold_right] in A3. lia. }
    cbn [skipn]. rewrite X. unfold labels at 2. cbn [map t_label rev]. fold (labels un).
    rewrite (off_snoc (labels un) c (fill frs t0) t0); [lia|exact So|exact Et'].
Qed.

(** ** add *)
Lemma has_tadd : forall w x t, has t w -> has (tadd t x) w /\ ((forall u, x <> w ++ u) -> sub (tadd t x) w = sub t w).
Proof.
  induction w as [|c w IH]; intros x t H; [split; [exact Logic.I|]; intros N; now destruct (N x)|]. cbn [has sub] in *.
  destruct (edge_get (tedges t) c) as [t'|] eqn:G; [|destruct H]. unfold tget. rewrite G.
  destruct x as [|d x]; [destruct t as [f es]; cbn [tadd tedges] in *; rewrite G; auto|].
  destruct t as [f es]. cbn [tadd tedges] in *. rewrite edge_get_set. destruct (ceqb_spec c d) as [[<- E]|[N E]]; rewrite E.
  - unfold tget. cbn [tedges]. rewrite G. destruct (IH x t' H) as (A & B). split; [exact A|]. intros N. apply B. intros u ->. now apply (N u).
  - rewrite G. auto.
Qed.

Lemma settled_tadd : forall t v x R, settled t v R -> (forall w, has t w -> (exists u, x = w ++ u) -> exists u, v = w ++ u) ->
  settled (tadd t x) x R.
Proof.
  intros t v x R St H r J. destruct (St r J) as (w & A & B & N). destruct (has_tadd w x t A) as (A' & B').
  assert (Nx : forall u, x <> w ++ u) by (intros u E; destruct (H w A (ex_intro _ u E)) as (u' & E'); exact (N u' E')).
  exists w. split; [exact A'|]. split; [now rewrite B'|exact Nx].
Qed.

Lemma push_suffix_min : forall alloc rest h w s h2 w2 l, push_suffix alloc h w s rest = (h2, w2, l) -> w_minimized w2 = w_minimized w.
Proof.
  intros alloc. induction rest as [|c rest IH]; intros h w s h2 w2 l E; cbn in E; [now injection E as <- <- <-|]. apply IH in E. exact E.
Qed.

(** Registered nodes that are the same in another memory. *)
Lemma registered_same : forall B B' h h' m R, minv B h m -> minv B' h' m -> registered h m R -> registered h' m R.
Proof.
  intros B B' h h' m R M M' [F ND]. split; [|exact ND]. eapply registered_frame; [exact F|]. intros e r J U.
  eapply unf_frame with (h := h) (P := fun p => In p (mptrs m)); [apply (mi_closed _ _ _ M)| | |exact U].
  - intros q K. apply in_map_iff in K. destruct K as (x & <- & K). destruct (mi_ent _ _ _ M x K) as (_ & -> & _).
    now destruct (mi_ent _ _ _ M' x K) as (_ & -> & _).
  - apply in_map. exact J.
Qed.

Lemma c_add_ok : forall alloc B h0 h b t w frs t0 term h' b', allocator alloc ->
  binv B h0 h b t w frs t0 -> length term < B -> ~ lex_lt term (b_prev b) -> tsorted t ->
  (forall fuel, B <= fuel -> add fuel alloc h b term = Ok (true, h', b')) ->
  exists calls extra, (forall fuel, B <= fuel -> c_add fuel alloc h b term = Ok (true, h', b', calls)) /\
    off (tadd t term) term = off t (b_prev b) + extra /\ extra <= calls <= 2 * extra /\
    forall R, registered h (w_minimized w) R -> settled t (b_prev b) R ->
      exists w' R', b_work b' = Some w' /\ registered h' (w_minimized w') R' /\ settled (tadd t term) term R' /\
        calls + sizes R = extra + sizes R'.
Proof.
  intros alloc B h0 h b t w frs t0 term h' b' A BI Lt NL So Ea.
  destruct (add_ok alloc B h0 h b t w frs t0 term A BI Lt NL) as (hx & bx & wx & frx & tx & Ex & BIx & _).
  pose proof (Ex B (le_n _)) as Ey. rewrite (Ea B (le_n _)) in Ey. injection Ey as <- <-. clear Ex.
  destruct BIx as [Hwx Ix _ _ _ _]. pose proof (iv_min _ _ _ _ _ _ _ Ix) as Mx. clear Ix.
  destruct BI as [Hw I Ht Hh Hp Hn]. set (root := d_root (b_dawg b)) in *.
  assert (Es : str_ltb term (b_prev b) = false).
  { destruct (str_ltb term (b_prev b)) eqn:Es; [apply str_ltb_lex in Es; tauto|auto]. }
  set (i := common_prefix term (b_prev b)).
  destruct (common_prefix_spec term (b_prev b) NL) as (L1 & L2 & Fe & D). fold i in L1, L2, Fe, D.
  assert (Lun : length (w_unchecked w) = length (b_prev b)) by (rewrite <- Hp, labels_length; auto).
  destruct term as [|c0 term0].
  { exists 0, 0. split; [|split; [|split; [lia|]]].
    3: { intros R Rg St. specialize (Ea B (le_n _)). unfold add in Ea. rewrite Es in Ea. cbv zeta in Ea.
         destruct (set_final h (d_root (b_dawg b)) true) as [h1| |]; try discriminate. cbn [rbind] in Ea. injection Ea as <- <-.
         cbn [b_work] in Hwx. rewrite Hw in Hwx. injection Hwx as <-. exists w, R. split; [exact Hw|]. split; [|split; [|lia]].
         - exact (registered_same _ _ _ _ _ _ (iv_min _ _ _ _ _ _ _ I) Mx Rg).
         - apply (settled_tadd _ _ _ _ St). intros v _ (u & E). destruct v; [eexists; reflexivity|discriminate]. }
    - intros fuel Hf. specialize (Ea fuel Hf). unfold add in Ea. unfold c_add. rewrite Es in *. cbv zeta in *.
      destruct (set_final h (d_root (b_dawg b)) true); try discriminate. cbn [rbind] in *. injection Ea as <- <-. reflexivity.
    - rewrite off_tadd. destruct D as [D|(a & b0 & u' & v' & Sk & _)]; [|destruct i; discriminate].
      assert (i = 0) as Hi0 by reflexivity. rewrite Hi0 in D. destruct (b_prev b); [cbn; lia|discriminate]. }
  set (term := c0 :: term0) in *.
  destruct (minimize_loop_ok (length (w_unchecked w) - i) B h0 h root w frs t0 I)
    as (h1 & w1 & frs1 & t1 & E1 & I1 & F1 & U1 & D1); [rewrite Ht; auto | lia |].
  destruct (c_minimize_loop_ok (length (w_unchecked w) - i) B h0 h root w frs t0 I)
    as (h2 & w2 & calls & E2 & Ec & extra & X & Lx & Rg); [rewrite Ht; auto|lia|rewrite Ht; auto|].
  pose proof (E1 B (le_n _)) as Eq. rewrite (E2 B (le_n _)) in Eq. injection Eq as -> ->.
  assert (La1 : labels (w_unchecked w1) = firstn i term).
  { rewrite U1, labels_skipn by lia. rewrite Hp, Fe. f_equal. lia. }
  assert (St : sub t (firstn i term) = t1).
  { pose proof (sub_fill frs1 t1) as S1. rewrite F1, Ht in S1. rewrite (frames_labels _ _ _ _ (iv_frames _ _ _ _ _ _ _ I1)), La1 in S1. exact S1. }
  assert (Ab : forall c rest, skipn i term = c :: rest -> edge_get (tedges t1) c = None).
  { intros c rest Er. pose proof (iv_top _ _ _ _ _ _ _ I1) as U. destruct (unf_inv _ _ _ U) as (n & _ & G & _ & Us & _).
    pose proof (unfs_get _ _ _ c Us) as Y. destruct (edge_get (nedges n) c) as [q|] eqn:Ge; [|exact Y]. exfalso.
    apply edge_get_In in Ge.
    destruct (length (w_unchecked w) - i) as [|k] eqn:Ek.
    + destruct D1 as [-> ->]. apply Hn in G. rewrite G in Ge. destruct Ge.
    + destruct D1 as (tr & n' & Nth & G' & Le).
      rewrite G in G'. injection G' as <-. specialize (Le _ _ Ge).
      destruct D as [D|(a & b0 & u' & v' & Sk & Nb & _ & Lab)]; [lia|].
      apply labels_nth in Nth. rewrite Hp in Nth.
      replace (length (w_unchecked w) - S k) with i in Nth by lia.
      rewrite Nb in Nth. injection Nth as ->. rewrite Sk in Er. injection Er as -> _. lia. }
  exists calls, extra. split; [|split; [|split; [exact Lx|]]].
  3: { intros R R0 S0. destruct (Rg R R0) as (R' & A1 & A2 & A3); [rewrite Ht, Hp; exact S0|].
       rewrite <- U1, La1, Ht in A2. exists wx, R'. split; [exact Hwx|]. split; [|split; [|exact A3]].
       - assert (Em : w_minimized wx = w_minimized w1).
         { specialize (Ea B (le_n _)). rewrite add_nonempty in Ea by (auto; discriminate). fold i in Ea. rewrite Hw in Ea. cbn [deref rbind] in Ea.
           unfold minimize in Ea. rewrite E1 in Ea by auto. cbn [rbind] in Ea.
           destruct (push_suffix alloc h1 w1 _ (skipn i term)) as [[h3 w3] last] eqn:Ep.
           destruct (set_final h3 last true); try discriminate. cbn [rbind] in Ea. injection Ea as <- <-.
           cbn [b_work] in Hwx. injection Hwx as <-. exact (push_suffix_min _ _ _ _ _ _ _ _ Ep). }
         rewrite Em in *. exact (registered_same _ _ _ _ _ _ (iv_min _ _ _ _ _ _ _ I1) Mx A1).
       - apply (settled_tadd _ _ _ _ A2). intros v Hv (u & E).
         destruct (Nat.le_gt_cases (length v) i) as [Lv|Lv].
         + exists (firstn (i - length v) u). rewrite E, firstn_app, firstn_all2 by lia. reflexivity.
         + exfalso. rewrite <- (firstn_skipn i v) in Hv. apply has_app in Hv. destruct Hv as (_ & Hv).
           assert (Fv : firstn i v = firstn i term) by (rewrite E, firstn_app; replace (i - length v) with 0 by lia; cbn; now rewrite app_nil_r).
           rewrite Fv, St in Hv. destruct (skipn i v) as [|c rest] eqn:Ev; [apply (f_equal (@length _)) in Ev; rewrite skipn_length in Ev; cbn [length] in Ev; lia|].
           cbn [has] in Hv. rewrite (Ab c (rest ++ u)) in Hv; [exact Hv|]. rewrite E, skipn_app, Ev. replace (i - length v) with 0 by lia. reflexivity. }
  - intros fuel Hf. specialize (Ea fuel Hf). rewrite add_nonempty in Ea by (auto; discriminate).
    unfold c_add. rewrite Es. cbv zeta. fold i in Ea |- *. change (match term with [] => _ | _ :: _ => ?x end) with x.
    rewrite Hw in *. cbn [deref rbind] in *. unfold minimize in Ea. unfold c_minimize. rewrite E1 in Ea by auto. rewrite Ec by auto. cbn [rbind] in *.
    change (match w_unchecked w1 with [] => d_root (b_dawg b) | t :: _ => t_target t end) with (top (d_root (b_dawg b)) (w_unchecked w1)).
    destruct (push_suffix alloc h1 w1 (top (d_root (b_dawg b)) (w_unchecked w1)) (skipn i term)) as [[h3 w3] last].
    destruct (set_final h3 last true); try discriminate. cbn [rbind] in *. injection Ea as <- <-. reflexivity.
  - rewrite off_tadd. rewrite Ht in X. rewrite <- U1, La1, Hp in X. rewrite <- X.
    rewrite <- (firstn_skipn i term) at 1. apply off_app.
    rewrite St. destruct (skipn i term) as [|c rest] eqn:Er; [reflexivity|]. apply off_absent. apply (Ab c rest). reflexivity.
Qed.

Lemma c_adds_ok : forall alloc, allocator alloc -> forall ts B h0 h b t w frs t0,
  binv B h0 h b t w frs t0 -> short B ts -> tsorted t ->
  exists flags kept h' b' w' frs' t0' calls extra,
    greedy (b_prev b) ts flags kept /\
    (forall fuel, B <= fuel -> adds fuel alloc h b ts = Ok (flags, h', b')) /\
    (forall fuel, B <= fuel -> c_adds fuel alloc h b ts = Ok (flags, h', b', calls)) /\
    binv B h0 h' b' (trie_from t kept) w' frs' t0' /\ tsorted (trie_from t kept) /\
    off (trie_from t kept) (b_prev b') = off t (b_prev b) + extra /\ extra <= calls <= 2 * extra /\
    forall R, registered h (w_minimized w) R -> settled t (b_prev b) R ->
      exists R', registered h' (w_minimized w') R' /\ settled (trie_from t kept) (b_prev b') R' /\ calls + sizes R = extra + sizes R'.
Proof.
  intros alloc A. induction ts as [|x ts IH]; intros B h0 h b t w frs t0 BI Sh So.
  - exists [], [], h, b, w, frs, t0, 0, 0. split; [constructor|]. split; [auto|]. split; [auto|]. split; [auto|]. split; [auto|].
    cbn [trie_from fold_left]. split; [lia|]. split; [lia|]. eauto.
  - apply short_cons in Sh. destruct Sh as [Lx Sh].
    destruct (lex_lt_dec x (b_prev b)) as [L|L].
    + destruct (IH B h0 h b t w frs t0 BI Sh So) as (flags & kept & h' & b' & w' & frs' & t0' & calls & extra & G & E & Ec & R).
      exists (false :: flags), kept, h', b', w', frs', t0', calls, extra. split; [constructor; auto|].
      split; [intros fuel Hf; cbn; rewrite add_reject by auto; cbn; rewrite E by auto; auto|].
      split; [|exact R]. intros fuel Hf. cbn [c_adds]. unfold c_add. apply str_ltb_lex in L. rewrite L. cbn [rbind]. rewrite Ec by auto. reflexivity.
    + destruct (add_ok alloc B h0 h b t w frs t0 x A BI Lx L) as (h1 & b1 & w1 & frs1 & t1 & E1 & BI1 & P1 & R1 & S1).
      destruct (c_add_ok alloc B h0 h b t w frs t0 x h1 b1 A BI Lx L So E1) as (calls1 & extra1 & Ec1 & O1 & Lc1 & Rg1).
      assert (So1 : tsorted (tadd t x)) by (apply tadd_sorted; exact So).
      destruct (IH B h0 h1 b1 _ w1 frs1 t1 BI1 Sh So1) as (flags & kept & h' & b' & w' & frs' & t0' & calls & extra & G & E & Ec & BI' & So' & O & Lc & Rg).
      exists (true :: flags), (x :: kept), h', b', w', frs', t0', (calls1 + calls), (extra1 + extra).
      split; [constructor; auto; rewrite <- P1; auto|].
      split; [intros fuel Hf; cbn; rewrite E1 by auto; cbn; rewrite E by auto; auto|].
      split; [intros fuel Hf; cbn [c_adds]; rewrite Ec1 by auto; cbn [rbind]; rewrite Ec by auto; reflexivity|].
      split; [exact BI'|]. split; [exact So'|]. cbn [trie_from fold_left] in *. unfold trie_from in *. rewrite O, P1, O1. split; [lia|]. split; [lia|].
      intros R R0 S0. destruct (Rg1 R R0 S0) as (wx & Ra & Hx & R1' & S1' & C1). destruct BI1 as [Hw1 _ _ _ _ _]. rewrite Hw1 in Hx. injection Hx as <-.
      rewrite P1 in Rg. destruct (Rg Ra R1' S1') as (R2 & R2' & S2' & C2). exists R2. split; [exact R2'|]. split; [exact S2'|]. lia.
Qed.

Lemma closed_sub : forall h (P : ptr -> Prop), closed h P -> forall w p t, P p -> unf h p t -> has t w ->
  exists q, P q /\ unf h q (sub t w).
Proof.
  intros h P C. induction w as [|c w IH]; intros p t Pp U H; [exists p; auto|]. cbn [has sub] in *.
  destruct (unf_inv _ _ _ U) as (n & _ & G & _ & Us & _). pose proof (unfs_get _ _ _ c Us) as Y. unfold tget.
  destruct (edge_get (nedges n) c) as [q|] eqn:Gq; [|rewrite Y in H; destruct H]. destruct Y as (tq & Gt & Uq). rewrite Gt in *.
  apply (IH q tq); auto. apply edge_get_In in Gq. eapply C; eauto.
Qed.

Lemma c_finished_ok : forall alloc h0 ts, allocator alloc ->
  exists flags kept h b calls, greedy [] ts flags kept /\
    runs_to (fun fuel => finished fuel alloc h0 ts) (flags, h, b) /\
    runs_to (fun fuel => c_finished fuel alloc h0 ts) (flags, h, b, calls) /\
    weight (trie kept) <= calls <= 2 * weight (trie kept) /\
    exists R, NoDup R /\ (forall r, In r R <-> exists w, w <> [] /\ has (trie kept) w /\ sub (trie kept) w = r) /\
      calls = weight (trie kept) + sizes R.
Proof.
  intros alloc h0 ts A. assert (exists B, 1 <= B /\ short B ts) as (B & HB & HL).
  { clear. unfold short. induction ts as [|x ts (B & H1 & H)]; [exists 1; split; [lia|intros ? []]|]. exists (Nat.max B (S (length x))).
    split; [lia|]. intros y [<-|I]; [lia|]. specialize (H y I). lia. }
  destruct (new_sorted_dawg alloc h0) as [h1 b1] eqn:En.
  destruct (new_sorted_dawg_ok alloc B h0 A HB h1 b1 En) as (BI & P & Sz).
  destruct (c_adds_ok alloc A ts B h0 h1 (init b1) leaf _ _ _ BI HL tsorted_leaf)
    as (flags & kept & h2 & b2 & w2 & frs2 & t2 & calls & extra & G & E & Ec & BI2 & So & O & Lc & Rg).
  rewrite P in *. rewrite off_leaf in O. destruct BI2 as [Hw I Ht Hh Hp Hn].
  destruct (c_minimize_loop_ok (length (w_unchecked w2) - 0) B h0 h2 _ w2 frs2 t2 I)
    as (h3 & w3 & calls3 & E3 & Ec3 & extra3 & X & Lx & Rg3); [rewrite Ht; auto|lia|rewrite Ht; auto|].
  destruct (minimize_loop_ok (length (w_unchecked w2) - 0) B h0 h2 _ w2 frs2 t2 I)
    as (hx & wx & frs3 & t3 & Ex & I3 & F3 & U3 & _); [rewrite Ht; auto | lia |].
  pose proof (E3 B (le_n _)) as Ey. rewrite (Ex B (le_n _)) in Ey. injection Ey as -> ->. clear Ex.
  exists flags, kept, h3, (Builder (b_dawg b2) (b_prev b2) (Some w3)), (calls + calls3). split; [exact G|].
  split; [|split].
  - exists B. intros fuel Hf. unfold finished, under_construction. rewrite En, E by auto. cbn [rbind]. unfold finish. rewrite Hw. cbn [deref rbind].
    unfold minimize. rewrite E3 by auto. reflexivity.
  - exists B. intros fuel Hf. unfold c_finished. rewrite En, Ec by auto. cbn [rbind]. unfold c_finish. rewrite Hw. cbn [deref rbind].
    unfold c_minimize. rewrite Ec3 by auto. reflexivity.
  - rewrite Nat.sub_0_r, skipn_all, Ht, Hp in X. unfold labels in X. cbn [map rev off] in X.
    change (trie_from leaf kept) with (trie kept) in *. split; [lia|].
    destruct (Rg []) as (R1 & A1 & A2 & A3).
    { split; constructor. }
    { intros r []. }
    destruct (Rg3 R1 A1) as (R & B1 & B2 & B3); [rewrite Ht, Hp; exact A2|]. rewrite Nat.sub_0_r, skipn_all, Ht in B2.
    exists R. split; [apply B1|]. split; [|cbn [sizes fold_right] in A3; lia]. intros r. split.
    + intros J. destruct (B2 r J) as (w & Hw' & Sw & N). exists w. split; [intros ->; exact (N [] eq_refl)|]. auto.
    + intros (w & Nw & Hw' & <-). rewrite Nat.sub_0_r, skipn_all in U3.
      pose proof (iv_top _ _ _ _ _ _ _ I3) as Ur. rewrite U3 in Ur. cbn [top] in Ur.
      destruct (iv_edges _ _ _ _ _ _ _ I3 _ (or_introl eq_refl)) as (n & Gn & _ & Ed).
      pose proof (frames_labels _ _ _ _ (iv_frames _ _ _ _ _ _ _ I3)) as Fx. rewrite U3 in Fx.
      assert (t3 = trie kept) as ->.
      { rewrite <- Ht, <- F3. destruct frs3 as [|[[f es] c] frs3]; [reflexivity|]. unfold flabels, labels in Fx. cbn in Fx. now destruct (rev (map snd frs3)). }
      destruct w as [|c w]; [congruence|]. cbn [has sub] in *. destruct (unf_inv _ _ _ Ur) as (n' & _ & Gn' & _ & Us & _). rewrite Gn in Gn'. injection Gn' as <-.
      pose proof (unfs_get _ _ _ c Us) as Y. unfold tget. destruct (edge_get (nedges n) c) as [q|] eqn:Gq; [|rewrite Y in Hw'; destruct Hw'].
      destruct Y as (tq & Gt & Uq). rewrite Gt in *.
      assert (Z : exists p, In p (mptrs (w_minimized w3)) /\ unf h3 p (sub tq w)).
      { apply (closed_sub h3 (fun p => In p (mptrs (w_minimized w3)))) with q; auto.
        - apply (mi_closed _ _ _ (iv_min _ _ _ _ _ _ _ I3)).
        - apply edge_get_In in Gq. eapply Ed. exact Gq. }
      destruct Z as (p & Jp & Up). clear -Jp Up B1. destruct B1 as [F _]. unfold mptrs in Jp.
      induction F as [|e r m R Ue F IH]; [destruct Jp|]. destruct Jp as [<-|Jp]; [left; eapply unf_det; eauto|right; auto].
Qed.

(** ** The weight of a trie *)
Definition qweight (q : list item) : nat := list_sum (map (fun e => length (fst e) * tsize (snd e) + weight (snd e)) q).

Lemma qweight_app a b : qweight (a ++ b) = qweight a + qweight b.
Proof. unfold qweight. now rewrite map_app, list_sum_app. Qed.

Lemma qweight_children s es : qweight (children s es) = length s * sizes (map snd es) + eweight es.
Proof.
  induction es as [|[c t] es IH]; [cbn; lia|].
  change (qweight (children s ((c, t) :: es))) with (length (s ++ [c]) * tsize t + weight t + qweight (children s es)).
  change (sizes (map snd ((c, t) :: es))) with (tsize t + sizes (map snd es)).
  change (eweight ((c, t) :: es)) with (tsize t + weight t + eweight es).
  rewrite IH, app_length. cbn [length]. lia.
Qed.

Lemma enum_weight : forall q, total_length (enum (fullq q)) = qweight q.
Proof.
  apply queue_ind; [reflexivity|]. intros s f es q IH. unfold fullq. cbn [map fst snd full]. rewrite enum_cons.
  assert (E : enum (map (fun e => (fst e, full (snd e))) q ++ children s (map (fun e => (fst e, full (snd e))) es)) = enum (fullq (q ++ children s es))).
  { unfold fullq. rewrite map_app. do 2 f_equal. unfold children. rewrite !map_map. reflexivity. }
  rewrite E. cbn [app].
  change (total_length (s :: enum (fullq (q ++ children s es)))) with (length s + total_length (enum (fullq (q ++ children s es)))).
  rewrite IH, qweight_app, qweight_children.
  change (qweight ((s, T f es) :: q)) with (length s * tsize (T f es) + eweight es + qweight q). rewrite sizes_edges. lia.
Qed.

Lemma prefixes_weight : forall terms ps, lists_prefixes terms ps -> length ps = tsize (trie terms) /\ total_length ps = weight (trie terms).
Proof.
  intros terms ps [ND I].
  assert (P : Permutation ps (words (full (trie terms)))).
  { pose proof (full_sorted _ (trie_sorted terms)) as So. apply NoDup_Permutation; auto.
    - apply StronglySorted_NoDup with shortlex_lt; [apply shortlex_irrefl|]. apply words_sorted; auto.
    - intros [|c w]; rewrite words_In by auto; rewrite I.
      + split; [|auto]. intros _. destruct (trie terms). reflexivity.
      + rewrite tin_full_trie. split; [|auto]. intros [X|X]; [discriminate|auto]. }
  split.
  - rewrite (Permutation_length P). pose proof (enum_full [([], trie terms)]) as E. unfold qsize, sizes in E. cbn [map snd fold_right] in E.
    rewrite Nat.add_0_r in E. exact E.
  - pose proof (enum_weight [([], trie terms)]) as E. unfold qweight, list_sum in E. cbn [map fst snd fold_right length] in E.
    rewrite Nat.add_0_r in E. cbn [Nat.mul Nat.add] in E. rewrite <- E.
    unfold total_length. unfold words, fullq in *. cbn [map fst snd]. clear -P.
    apply (Permutation_map (@length _)) in P. unfold list_sum. induction P; cbn; lia.
Qed.

(** ** The registered trees as prefixes *)
Lemma has_full : forall w t, has t w <-> tin (full t) w = true.
Proof.
  induction w as [|c w IH]; intros [f es]; cbn [has full tin tfin tedges]; [tauto|].
  change (map (fun e => (fst e, full (snd e))) es) with (fulls es). rewrite fulls_get.
  destruct (edge_get es c); [apply IH|]. split; [intros []|discriminate].
Qed.

Lemma has_trie : forall terms w, w <> [] -> (has (trie terms) w <-> exists u, In (w ++ u) terms).
Proof. intros terms [|c w] N; [congruence|]. rewrite has_full. apply tin_full_trie. Qed.

Lemma tin_sub : forall w t x, tin (sub t w) x = tin t (w ++ x).
Proof.
  induction w as [|c w IH]; intros t x; [reflexivity|]. cbn [sub app tin]. rewrite IH. unfold tget.
  destruct (edge_get (tedges t) c); [reflexivity|apply tin_leaf].
Qed.

Lemma sub_P : forall (P : tree -> Prop), P leaf -> (forall f es, P (T f es) -> Forall (fun e => P (snd e)) es) ->
  forall w t, P t -> P (sub t w).
Proof. intros P L H. induction w as [|c w IH]; intros [f es] Pt; [exact Pt|]. cbn [sub]. apply IH. apply tget_P; auto. eapply H; eauto. Qed.

Lemma sub_trie : forall terms w, tsorted (sub (trie terms) w) /\ useful (sub (trie terms) w).
Proof.
  intros terms w. split; apply sub_P; auto using tsorted_leaf, useful_leaf, trie_sorted, trie_useful; intros f es H; inversion H; auto.
Qed.

Lemma sub_same : forall terms u v, sub (trie terms) u = sub (trie terms) v <-> same_endings terms u v.
Proof.
  intros terms u v. unfold same_endings. split.
  - intros E x. rewrite <- !tin_trie, <- !tin_sub, E. tauto.
  - intros H. apply tree_ext; try apply sub_trie. apply tin_bool_ext. intros x. rewrite !tin_sub, !tin_trie. apply H.
Qed.

Lemma begins_spec : forall r w, begins r w = true <-> exists u, w = r ++ u.
Proof.
  induction r as [|c r IH]; intros w; cbn [begins app]; [split; eauto|]. destruct w as [|d w]; [split; [discriminate|intros (u & E); discriminate]|].
  rewrite andb_true_iff, IH, ceqb_true. split.
  - intros (-> & u & ->). eauto.
  - intros (u & E). injection E as -> ->. eauto.
Qed.

Lemma sub_size : forall terms ps r, lists_prefixes terms ps -> r <> [] -> (exists u, In (r ++ u) terms) ->
  tsize (sub (trie terms) r) = length (filter (begins r) ps).
Proof.
  intros terms ps r [ND I] Nr (u0 & J0).
  set (cut := fun l => map (skipn (length r)) (filter (begins r) l)).
  assert (C : forall l w, In w (cut l) <-> In (r ++ w) l).
  { intros l w. unfold cut. rewrite in_map_iff. split.
    - intros (x & <- & J). apply filter_In in J. destruct J as (J & Bg). apply begins_spec in Bg. destruct Bg as (u & ->).
      rewrite skipn_app, skipn_all, Nat.sub_diag. exact J.
    - intros J. exists (r ++ w). split; [now rewrite skipn_app, skipn_all, Nat.sub_diag|]. apply filter_In. split; [exact J|]. apply begins_spec. eauto. }
  assert (E : sub (trie terms) r = trie (cut terms)).
  { apply tree_ext; try apply sub_trie; auto using trie_sorted, trie_useful. apply tin_bool_ext. intros x. rewrite tin_sub, !tin_trie. symmetry. apply C. }
  assert (P : lists_prefixes (cut terms) (cut ps)).
  { split.
    - unfold cut. assert (X : forall l, NoDup l -> (forall x, In x l -> exists u, x = r ++ u) -> NoDup (map (skipn (length r)) l)).
      { induction l as [|x l IH]; intros N H; cbn; constructor; inversion N; subst.
        - intros J. apply in_map_iff in J. destruct J as (y & Ey & J). destruct (H x (or_introl eq_refl)) as (u & ->). destruct (H y (or_intror J)) as (v & ->).
          rewrite !skipn_app, !skipn_all, !Nat.sub_diag in Ey. cbn in Ey. subst v. contradiction.
        - apply IH; auto. intros y J. apply H. now right. }
      apply X; [now apply NoDup_filter|]. intros x J. apply filter_In in J. apply begins_spec. apply J.
    - intros w. rewrite C, I. split.
      + intros [X|(u & J)]; [destruct r; [congruence|discriminate]|]. right. exists u. apply C. now rewrite app_assoc.
      + intros [->|(u & J)]; right; [exists u0; now rewrite app_nil_r|]. exists u. apply C in J. now rewrite <- app_assoc. }
  rewrite E. destruct (prefixes_weight _ _ P) as (<- & _). unfold cut. apply map_length.
Qed.

Lemma sizes_perm : forall a b, Permutation a b -> sizes a = sizes b.
Proof. intros a b P. unfold sizes. induction P; cbn; lia. Qed.

Lemma representatives_sizes : forall terms ps reps R, lists_prefixes terms ps -> representatives terms reps -> NoDup R ->
  (forall r, In r R <-> exists w, w <> [] /\ has (trie terms) w /\ sub (trie terms) w = r) ->
  sizes R = list_sum (map (fun r => length (filter (begins r) ps)) reps).
Proof.
  intros terms ps reps R P (ND & Pre & Inj & All) NR HR.
  assert (Pm : Permutation R (map (sub (trie terms)) reps)).
  { apply NoDup_Permutation; [exact NR| |].
    - clear All HR. induction reps as [|r reps IH]; cbn; constructor; inversion ND; subst.
      + intros J. apply in_map_iff in J. destruct J as (s & E & J). assert (r = s); [|congruence].
        apply Inj; [now left|now right|]. apply sub_same. now symmetry.
      + apply IH; auto; intros; [apply Pre; now right|apply Inj; auto; now right].
    - intros x. rewrite HR, in_map_iff. split.
      + intros (w & Nw & Hw & <-). apply has_trie in Hw; [|exact Nw]. destruct Hw as (u & J). destruct (All w u Nw J) as (r & Jr & S).
        exists r. split; [|exact Jr]. symmetry. apply sub_same. exact S.
      + intros (r & <- & J). destruct (Pre r J) as (Nr & Ex). exists r. split; [exact Nr|]. split; [|reflexivity]. apply has_trie; auto. }
  rewrite (sizes_perm _ _ Pm). clear -P Pre. induction reps as [|r reps IH]; [reflexivity|].
  cbn [map]. unfold sizes, list_sum. cbn [fold_right]. f_equal; [|apply IH; intros; apply Pre; now right].
  destruct (Pre r (or_introl eq_refl)). apply sub_size; auto.
Qed.

Lemma representatives_exist : forall terms R, NoDup R ->
  (forall r, In r R <-> exists w, w <> [] /\ has (trie terms) w /\ sub (trie terms) w = r) -> exists reps, representatives terms reps.
Proof.
  intros terms R NR HR.
  assert (X : forall R', incl R' R -> exists reps, Forall2 (fun r w => w <> [] /\ has (trie terms) w /\ sub (trie terms) w = r) R' reps).
  { induction R' as [|r R' IH]; intros Ic; [exists []; constructor|]. destruct IH as (reps & F); [intros x J; apply Ic; now right|].
    destruct (proj1 (HR r) (Ic r (or_introl eq_refl))) as (w & H). exists (w :: reps). constructor; auto. }
  destruct (X R (incl_refl _)) as (reps & F). exists reps.
  assert (M : R = map (sub (trie terms)) reps) by (clear -F; induction F as [|? ? ? ? (_ & _ & <-) F IH]; [reflexivity|cbn; now rewrite IH]).
  assert (G : forall w, In w reps -> w <> [] /\ has (trie terms) w).
  { clear -F. induction F as [|? ? ? ? (A & B & _) F IH]; intros w J; [destruct J|]. destruct J as [<-|J]; auto. }
  rewrite M in *. split; [now apply NoDup_map_inv in NR|]. split; [|split].
  - intros r J. destruct (G r J) as (A & B). split; [exact A|]. apply has_trie; auto.
  - intros r s Jr Js E. apply sub_same in E. clear -NR Jr Js E. induction reps as [|x reps IH]; [destruct Jr|]. cbn in NR. inversion NR; subst.
    destruct Jr as [->|Jr], Js as [->|Js]; auto; exfalso; match goal with H : ~ In _ _ |- _ => apply H end; [rewrite E|rewrite <- E]; now apply in_map.
  - intros w u Nw J. assert (I : In (sub (trie terms) w) (map (sub (trie terms)) reps)).
    { apply HR. exists w. split; [exact Nw|]. split; [|reflexivity]. apply has_trie; eauto. }
    apply in_map_iff in I. destruct I as (r & E & Jr). exists r. split; [exact Jr|]. apply sub_same. now symmetry.
Qed.

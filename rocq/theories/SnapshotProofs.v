(** * SnapshotProofs: looking at a dictionary while it is being built. *)
From Coq Require Import Sorting.Sorted Sorting.Permutation.
From Verif Require Import Base Spec ModelTransducer ModelDawg ModelQuery SpecDawg SpecQuery SpecOutlive SpecSnapshot AlignProofs
  TransProofs StateProofs TreeProofs HeapProofs BuildProofs BuildProofs2 IterProofs DawgProofs ModelSerial SerialProofs QueryProofs
  QueryFacts OutliveProofs.
Local Open Scope nat_scope.

(** ** What lies below the root stays *)

(** [below h root p]: [p] is a node of the dictionary other than the root. *)
Definition below (h : heap) (root p : ptr) : Prop :=
  exists n c q, hget h root = Some n /\ In (c, q) (nedges n) /\ reach h q p.

Lemma below_closed : forall h root, closed h (below h root).
Proof.
  intros h root p n c q (nr & d & r & G & I & R) Gp Iq. exists nr, d, r. split; auto. split; auto.
  eapply reach_step; eauto.
Qed.

Lemma below_reach : forall h root p, below h root p -> reach h root p.
Proof. intros h root p (n & c & q & G & I & R). eapply reach_cons; eauto. Qed.

Lemma below_minimized : forall B h0 h root w frs t0 p, inv B h0 h root w frs t0 -> below h root p -> In p (mptrs (w_minimized w)).
Proof.
  intros B h0 h root w frs t0 p I (n & c & q & G & J & R).
  destruct (iv_edges _ _ _ _ _ _ _ I root (or_introl eq_refl)) as (n2 & G2 & _ & Ed).
  assert (n2 = n) by congruence. subst n2.
  eapply closed_reach with (P := fun p => In p (mptrs (w_minimized w))); [|eapply Ed; eauto|exact R].
  eapply mi_closed. apply (iv_min _ _ _ _ _ _ _ I).
Qed.

Definition persists (root : ptr) (hs h : heap) : Prop :=
  forall p, below hs root p -> below h root p /\ hget h p = hget hs p.

Lemma persists_refl : forall root h, persists root h h.
Proof. intros root h p R. auto. Qed.

Lemma persists_next : forall root hs h h',
  (forall p, below h root p -> hget h' p = hget h p) ->
  (forall n, hget h root = Some n -> exists n', hget h' root = Some n' /\ incl (nedges n) (nedges n')) ->
  persists root hs h -> persists root hs h'.
Proof.
  intros root hs h h' E Er P p R. destruct (P p R) as [R1 E1]. split; [|rewrite E; auto].
  destruct R1 as (n & c & q & G & I & R1). destruct (Er n G) as (n' & G' & Inc).
  exists n', c, q. split; auto. split; auto. apply (reach_frame h h'); auto.
  intros r Rr. apply E. exists n, c, q. auto.
Qed.

Lemma persists_keeps : forall B h0 hs h root w frs t0 h' w', inv B h0 h root w frs t0 ->
  keeps root h w h' w' -> persists root hs h -> persists root hs h'.
Proof.
  intros B h0 hs h root w frs t0 h' w' I [K1 K2]. apply persists_next.
  - intros p R. apply K1. eapply below_minimized; eauto.
  - intros n G. destruct (K2 n G) as (n' & G' & Inc & _). eauto.
Qed.

Lemma changes_cons : forall e es, changes_in (e :: es) = if is_increment e then changes_in es else e :: changes_in es.
Proof. intros [] es; reflexivity. Qed.

Lemma increments_cons : forall e es, increments_in (e :: es) = (if is_increment e then 1 else 0) + increments_in es.
Proof. intros [] es; reflexivity. Qed.

(** ** Playing *)
Section Play.
  Context {S : Type} (increment : nat -> heap -> S -> res S) (looks : (ptr -> Prop) -> S -> Prop).
  Hypothesis Mono : forall h fuel fuel' s s', fuel <= fuel' -> increment fuel h s = Ok s' -> increment fuel' h s = Ok s'.
  Hypothesis Same : forall (P : ptr -> Prop) h h' fuel s, closed h P -> (forall p, P p -> hget h' p = hget h p) ->
    looks P s -> increment fuel h' s = increment fuel h s.
  Hypothesis Looks : forall (P : ptr -> Prop) h fuel s s', closed h P -> looks P s -> increment fuel h s = Ok s' -> looks P s'.
  Variables (alloc : heap -> ptr) (B : nat) (h0 hs : heap) (root : ptr).
  Hypothesis A : allocator alloc.

  (** [result h b es]: if the snapshot [hs] still persists in [h], then the
      iterator ends up where it would have in [hs]. *)
  Definition result (h : heap) (b : builder) (es : list event) : Prop :=
    forall M s s', looks (below hs root) s -> persists root hs h -> repeated increment M (increments_in es) hs s = Ok s' ->
      exists N h' b', forall fuel, N <= fuel -> play increment fuel alloc h b s es = Ok (h', b', s').

  Lemma result_nil : forall h b, result h b [].
  Proof. intros h b M s s' L P E. injection E as <-. exists 0, h, b. reflexivity. Qed.

  Lemma result_increment : forall h b es, result h b es -> result h b (Incrementing :: es).
  Proof.
    intros h b es IH M s s' L P E. change (increments_in (Incrementing :: es)) with (Datatypes.S (increments_in es)) in E.
    cbn [repeated] in E.
    destruct (increment M hs s) as [s1| |] eqn:E1; cbn [rbind] in E; try discriminate.
    destruct (IH M s1 s') as (N & h' & b' & X); auto.
    { eapply Looks; [apply below_closed|exact L|exact E1]. }
    exists (Nat.max M N), h', b'. intros fuel Hf. cbn [play].
    rewrite (Same (below hs root) hs h fuel s (below_closed _ _)); [|intros p R; apply P; auto|exact L].
    rewrite (Mono hs M fuel s s1) by (auto; lia). cbn [rbind]. apply X. lia.
  Qed.

  (** After clean_up(): only increments. *)
  Lemma play_cleaned : forall es h b, changes_in es = [] -> result h b es.
  Proof.
    induction es as [|e es IH]; intros h b C; [apply result_nil|].
    rewrite changes_cons in C. destruct e; cbn [is_increment] in C; try discriminate.
    apply result_increment. apply IH, C.
  Qed.

  Lemma result_clean_up : forall h b w frs t0 es, b_work b = Some w -> d_root (b_dawg b) = root ->
    inv B h0 h root w frs t0 -> changes_in es = [] -> result h b (CleaningUp :: es).
  Proof.
    intros h b w frs t0 es Hw Hr I C M s s' L P E.
    rewrite <- Hr in I. destruct (clean_up_ok B h0 h b w frs t0 Hw I) as (en & h1 & E1 & C1 & C2). rewrite Hr in C1.
    destruct (play_cleaned es h1 (Builder (b_dawg b) (b_prev b) None) C M s s') as (N & h' & b' & X); auto.
    { apply persists_next with (h := h); auto.
      - intros p R. apply C1. apply below_reach; auto.
      - intros n G. exists n. split; [|apply incl_refl]. rewrite <- G. apply C1, reach_refl. }
    exists (Nat.max en N), h', b'. intros fuel Hf. cbn [play]. rewrite E1 by lia. cbn [rbind]. apply X. lia.
  Qed.

  (** After finish(). *)
  Lemma play_finished : forall es h b w frs t0, b_work b = Some w -> d_root (b_dawg b) = root ->
    inv B h0 h root w frs t0 -> (changes_in es = [] \/ changes_in es = [CleaningUp]) -> result h b es.
  Proof.
    induction es as [|e es IH]; intros h b w frs t0 Hw Hr I C; [apply result_nil|].
    rewrite changes_cons in C. destruct e; cbn [is_increment] in C; try (destruct C; discriminate).
    - destruct C as [C|C]; [discriminate|]. injection C as C. eapply result_clean_up; eauto.
    - apply result_increment. eapply IH; eauto.
  Qed.

  Lemma play_ok : forall es h b t w frs t0, binv B h0 h b t w frs t0 -> d_root (b_dawg b) = root ->
    short B (terms_in es) -> in_order es -> result h b es.
  Proof.
    induction es as [|e es IH]; intros h b t w frs t0 BI Hr Sh (ts & fin & cl & C); [apply result_nil|].
    rewrite changes_cons in C. pose proof (bi_inv _ _ _ _ _ _ _ _ BI) as I. rewrite Hr in I.
    destruct e as [term| | |]; cbn [is_increment] in C.
    - (* add *)
      destruct ts as [|t1 ts]; [destruct fin, cl; discriminate|]. cbn [map app] in C. injection C as <- C.
      cbn [terms_in flat_map app] in Sh. apply short_cons in Sh. destruct Sh as [Lt Sh].
      assert (O : in_order es) by (exists ts, fin, cl; auto).
      intros M s s' L P E.
      destruct (lex_lt_dec term (b_prev b)) as [Lx|Lx].
      + destruct (IH h b t w frs t0 BI Hr Sh O M s s' L P E) as (N & h' & b' & X).
        exists N, h', b'. intros fuel Hf. cbn [play]. rewrite add_reject by auto. cbn [rbind]. auto.
      + destruct (add_keeps alloc B h0 h b t w frs t0 term A BI Lt Lx) as (h1 & b1 & w1 & frs1 & t1' & E1 & BI1 & _ & R1 & _ & K1).
        rewrite Hr in K1, R1.
        destruct (IH h1 b1 _ w1 frs1 t1' BI1 R1 Sh O M s s' L) as (N & h' & b' & X); auto.
        { exact (persists_keeps _ _ _ _ _ _ _ _ _ _ I K1 P). }
        exists (Nat.max B N), h', b'. intros fuel Hf. cbn [play]. rewrite E1 by lia. cbn [rbind]. apply X. lia.
    - (* finish *)
      destruct ts as [|t1 ts]; [|discriminate]. destruct fin; [|destruct cl; discriminate].
      cbn [map app] in C. injection C as C.
      intros M s s' L P E.
      destruct (finish_keeps B h0 h b t w frs t0 BI) as (h1 & w1 & E1 & I1 & _ & K1). rewrite Hr in I1, K1.
      assert (C' : changes_in es = [] \/ changes_in es = [CleaningUp]) by (destruct cl; auto).
      assert (P' : persists root hs h1) by exact (persists_keeps _ _ _ _ _ _ _ _ _ _ I K1 P).
      destruct (play_finished es h1 (Builder (b_dawg b) (b_prev b) (Some w1)) w1 [] t eq_refl Hr I1 C' M s s' L P' E) as (N & h' & b' & X).
      exists (Nat.max B N), h', b'. intros fuel Hf. cbn [play]. rewrite E1 by lia. cbn [rbind]. apply X. lia.
    - (* clean_up *)
      destruct ts as [|t1 ts]; [|discriminate]. destruct fin; [discriminate|]. destruct cl; [|discriminate].
      cbn [map app] in C. injection C as C. eapply result_clean_up; eauto. apply BI.
    - (* an increment *)
      apply result_increment. eapply IH; eauto. exists ts, fin, cl. auto.
  Qed.
End Play.

(** ** Queries *)
Section Query.
  Context {R : Type} (rt : result_type R).
  Variables (alg : algorithm) (x : str) (n : N).

  Let step := query_step rt alg x n.

  Record watches (P : ptr -> Prop) (q : query R) : Prop := {
    wa_pending : Forall (fun i => P (i_node i)) (q_pending q);
    wa_edges : Forall (fun e => P (snd e)) (q_edges q) }.

  Lemma read_same : forall h h' p, hget h' p = hget h p -> read h' p = read h p.
  Proof. intros h h' p E. unfold read. rewrite E. reflexivity. Qed.

  Lemma step_same : forall (P : ptr -> Prop) h h' q, (forall p, P p -> hget h' p = hget h p) -> watches P q ->
    advance_step rt h' alg x n q = advance_step rt h alg x n q.
  Proof.
    intros P h h' q E [Wp We]. unfold advance_step. destruct (q_edges q) as [|[c next] edges].
    - destruct (q_pending q) as [|i rest]; auto. destruct (i_state i); auto. inversion Wp; subst.
      rewrite (read_same h h') by auto. reflexivity.
    - inversion We; subst. rewrite (read_same h h') by auto. reflexivity.
  Qed.

  Lemma step_watches : forall (P : ptr -> Prop) h q broke q', closed h P -> watches P q ->
    advance_step rt h alg x n q = Ok (broke, q') -> watches P q'.
  Proof.
    intros P h q broke q' C [Wp We] E. unfold advance_step in E. destruct (q_edges q) as [|[c next] edges].
    - destruct (q_pending q) as [|i rest] eqn:Ep; [discriminate|].
      destruct (i_state i) as [|hd tl]; [discriminate|].
      destruct (read h (i_node i)) as [nd| |] eqn:Er; cbn [rbind] in E; try discriminate.
      injection E as <- <-. inversion Wp; subst. constructor; cbn; auto.
      unfold read in Er. destruct (N.eqb (i_node i) null); [discriminate|].
      destruct (hget h (i_node i)) eqn:G; [|discriminate]. injection Er as ->.
      apply Forall_forall. intros [d r] I. cbn. eapply C; eauto.
    - inversion We; subst.
      destruct (deref (q_current q)) as [i| |]; cbn [rbind] in E; try discriminate.
      destruct (characteristic_vector _ _ _ _) as [cv| |]; cbn [rbind] in E; try discriminate.
      destruct (state_transition _ _ _ _ _) as [[st|]| |]; cbn [rbind] in E; try discriminate.
      + assert (Hp' : Forall (fun i => P (i_node i)) (q_pending q ++ [ChildI c next st i])).
        { apply Forall_app. split; auto. }
        destruct (read h next) as [nd| |]; cbn [rbind] in E; try discriminate.
        destruct (nfin nd); [destruct (_ <=? _)%N|]; injection E as <- <-; constructor; cbn; auto.
      + injection E as <- <-. constructor; cbn; auto.
  Qed.

  Lemma loop_same : forall (P : ptr -> Prop) h h', closed h P -> (forall p, P p -> hget h' p = hget h p) ->
    forall fuel q, watches P q -> advance_query_loop rt h' alg x n fuel q = advance_query_loop rt h alg x n fuel q.
  Proof.
    intros P h h' C E. induction fuel as [|fuel IH]; intros q W; cbn [advance_query_loop]; auto.
    rewrite (step_same P h h' q E W).
    destruct (advance_step rt h alg x n q) as [[broke q1]| |] eqn:Es; cbn [rbind]; auto.
    destruct broke; auto. destruct (has_work q1); auto. apply IH. eapply step_watches; eauto.
  Qed.

  Lemma loop_watches : forall (P : ptr -> Prop) h, closed h P -> forall fuel q q', watches P q ->
    advance_query_loop rt h alg x n fuel q = Ok q' -> watches P q'.
  Proof.
    intros P h C. induction fuel as [|fuel IH]; intros q q' W E; cbn [advance_query_loop] in E; [discriminate|].
    destruct (advance_step rt h alg x n q) as [[broke q1]| |] eqn:Es; cbn [rbind] in E; try discriminate.
    pose proof (step_watches _ _ _ _ _ C W Es) as W1.
    destruct broke; [injection E as <-; auto|]. destruct (has_work q1); [eapply IH; eauto|injection E as <-; auto].
  Qed.

  Lemma query_same : forall (P : ptr -> Prop) h h' fuel q, closed h P -> (forall p, P p -> hget h' p = hget h p) ->
    watches P q -> step fuel h' q = step fuel h q.
  Proof.
    intros P h h' fuel q C E [Wp We]. unfold step, query_step, advance_query. destruct (has_work q); auto.
    eapply loop_same; eauto. constructor; auto.
  Qed.

  Lemma query_watches : forall (P : ptr -> Prop) h fuel q q', closed h P -> watches P q -> step fuel h q = Ok q' -> watches P q'.
  Proof.
    intros P h fuel q q' C [Wp We] E. unfold step, query_step, advance_query in E. destruct (has_work q).
    - eapply loop_watches; [exact C| |exact E]. constructor; auto.
    - injection E as <-. constructor; auto.
  Qed.

  (** The first increment takes in the edges of the root. *)
  Lemma first_watches : forall h root fuel st c cand q', 
    step fuel h (Query [RootI root st] [] c None cand 0%N 0%N) = Ok q' -> watches (below h root) q'.
  Proof.
    intros h root fuel st c cand q' E. unfold step, query_step, advance_query in E. cbn [has_work q_edges q_pending] in E.
    destruct fuel as [|fuel]; [discriminate|]. cbn [advance_query_loop] in E.
    unfold advance_step at 1 in E. cbn [set_complete q_edges q_pending i_state i_node] in E.
    destruct st as [|hd tl]; [discriminate|].
    destruct (read h root) as [nd| |] eqn:Er; cbn [rbind] in E; try discriminate.
    match type of E with context [has_work ?q] => set (q1 := q) in *; assert (W : watches (below h root) q1) end.
    { constructor; cbn; auto. apply Forall_forall. intros [d r] I. cbn.
      unfold read in Er. destruct (N.eqb root null); [discriminate|].
      destruct (hget h root) eqn:G; [|discriminate]. injection Er as ->.
      exists nd, d, r. split; auto. split; auto. apply reach_refl. }
    destruct (has_work q1); [|injection E as <-; exact W].
    eapply loop_watches; [apply below_closed|exact W|exact E].
  Qed.

  Lemma repeated_increments : forall k fuel h q, repeated step fuel k h q = increments rt h alg x n fuel k q.
  Proof.
    induction k as [|k IH]; intros fuel h q; cbn [repeated increments]; auto.
    unfold step at 1, query_step at 1. destruct (advance_query rt h alg x n fuel q); cbn [rbind]; auto.
  Qed.
End Query.

(** ** Iterators over the terms *)
Definition watching (P : ptr -> Prop) (it : iter) : Prop := Forall (fun p => P (prefix_node p)) (it_pending it).

Lemma read_closed : forall h (P : ptr -> Prop) p nd, closed h P -> P p -> read h p = Ok nd ->
  Forall (fun e : char * ptr => P (snd e)) (nedges nd).
Proof.
  intros h P p nd C Pp E. unfold read in E. destruct (N.eqb p null); [discriminate|].
  destruct (hget h p) eqn:G; [|discriminate]. injection E as ->.
  apply Forall_forall. intros [d r] I. cbn. eapply C; eauto.
Qed.

Lemma kids_watching : forall (P : ptr -> Prop) a es, Forall (fun e : char * ptr => P (snd e)) es ->
  Forall (fun p => P (prefix_node p)) (map (fun e => ChildPrefix (snd e) a (fst e)) es).
Proof. intros P a es F. apply Forall_map. eapply Forall_impl; [|exact F]. auto. Qed.

Lemma iter_loop_same : forall (P : ptr -> Prop) h h', closed h P -> (forall p, P p -> hget h' p = hget h p) ->
  forall fuel ps, Forall (fun p => P (prefix_node p)) ps -> advance_loop fuel h' ps = advance_loop fuel h ps.
Proof.
  intros P h h' C E. induction fuel as [|fuel IH]; intros ps F; cbn [advance_loop]; auto.
  destruct ps as [|a ps]; auto. inversion F; subst. rewrite (read_same h h') by auto.
  destruct (read h (prefix_node a)) as [nd| |] eqn:Er; cbn [rbind]; auto.
  assert (F' : Forall (fun p => P (prefix_node p)) (ps ++ map (fun e => ChildPrefix (snd e) a (fst e)) (nedges nd))).
  { apply Forall_app. split; auto. apply kids_watching. eapply read_closed; eauto. }
  destruct (nfin nd); auto. destruct (ps ++ _); auto.
Qed.

Lemma iter_loop_watching : forall (P : ptr -> Prop) h, closed h P -> forall fuel ps rest p nd, Forall (fun p => P (prefix_node p)) ps ->
  advance_loop fuel h ps = Ok (rest, p, nd) -> Forall (fun p => P (prefix_node p)) rest.
Proof.
  intros P h C. induction fuel as [|fuel IH]; intros ps rest p nd F E; cbn [advance_loop] in E; [discriminate|].
  destruct ps as [|a ps]; [discriminate|]. inversion F; subst.
  destruct (read h (prefix_node a)) as [n| |] eqn:Er; cbn [rbind] in E; try discriminate.
  assert (F' : Forall (fun p => P (prefix_node p)) (ps ++ map (fun e => ChildPrefix (snd e) a (fst e)) (nedges n))).
  { apply Forall_app. split; auto. apply kids_watching. eapply read_closed; eauto. }
  destruct (nfin n); [injection E as <- <- <-; auto|].
  destruct (ps ++ _) eqn:Eq; [injection E as <- <- <-; auto|]. eapply IH; eauto.
Qed.

Lemma iter_same : forall (P : ptr -> Prop) h h' fuel it, closed h P -> (forall p, P p -> hget h' p = hget h p) ->
  watching P it -> iter_next fuel h' it = iter_next fuel h it.
Proof.
  intros P h h' fuel it C E W. unfold watching in W. unfold iter_next, advance. destruct (it_pending it); auto.
  rewrite (iter_loop_same P h h') by auto. reflexivity.
Qed.

Lemma iter_watching : forall (P : ptr -> Prop) h fuel it it', closed h P -> watching P it -> iter_next fuel h it = Ok it' -> watching P it'.
Proof.
  unfold watching. intros P h fuel it it' C W E. unfold iter_next, advance in E. destruct (it_pending it) as [|a ps] eqn:Ep.
  - cbn [rbind] in E. injection E as <-. cbn. rewrite Ep. auto.
  - destruct (advance_loop fuel h (a :: ps)) as [[[rest p] nd]| |] eqn:El; cbn [rbind] in E; try discriminate.
    injection E as <-. cbn. eapply iter_loop_watching; eauto.
Qed.

Lemma begin_watching : forall h d fuel it, dawg_begin fuel h d = Ok it -> watching (below h (d_root d)) it.
Proof.
  unfold watching, dawg_begin, advance. cbn [it_pending it_value]. intros h d fuel it E.
  destruct (advance_loop fuel h [RootPrefix (d_root d)]) as [[[rest p] nd]| |] eqn:El; cbn [rbind] in E; try discriminate.
  injection E as <-. cbn. destruct fuel as [|fuel]; [discriminate|]. cbn [advance_loop prefix_node app] in El.
  destruct (read h (d_root d)) as [n| |] eqn:Er; cbn [rbind] in El; try discriminate.
  assert (F : Forall (fun p => below h (d_root d) (prefix_node p)) (map (fun e => ChildPrefix (snd e) (RootPrefix (d_root d)) (fst e)) (nedges n))).
  { apply kids_watching. apply Forall_forall. intros [c r] I. cbn.
    unfold read in Er. destruct (N.eqb (d_root d) null); [discriminate|].
    destruct (hget h (d_root d)) eqn:G; [|discriminate]. injection Er as ->.
    exists n, c, r. split; auto. split; auto. apply reach_refl. }
  destruct (nfin n); [injection El as <- <- <-; auto|].
  destruct (map _ _) eqn:Em; [injection El as <- <- <-; auto|].
  eapply iter_loop_watching; [apply below_closed|exact F|exact El].
Qed.

Lemma iter_next_more : forall h fuel fuel' it it', fuel <= fuel' -> iter_next fuel h it = Ok it' -> iter_next fuel' h it = Ok it'.
Proof.
  intros h fuel fuel' it it' L E. unfold iter_next in *.
  destruct (advance fuel h it) as [y| |] eqn:Ea; cbn [rbind] in E; try discriminate.
  rewrite (advance_more _ _ _ _ _ L Ea). auto.
Qed.

Lemma repeated_steps : forall k fuel h it, repeated iter_next fuel k h it = steps_on fuel h k it.
Proof. induction k as [|k IH]; intros fuel h it; cbn [repeated steps_on]; auto. destruct (iter_next fuel h it); cbn [rbind]; auto. Qed.

(** ** What can be found before finish() *)
Lemma useful_set : forall f es c sub, useful (T f (edge_set es c sub)) -> esorted es -> edge_get es c = None -> useful (T f es).
Proof.
  intros f es c sub U So G. inversion U as [? ? F1 F2]; subst. rewrite Forall_forall in F1, F2.
  assert (X : forall e, In e es -> In e (edge_set es c sub)).
  { intros [d t] I. apply edge_get_In. rewrite edge_get_set. destruct (ceqb_spec d c) as [[-> E]|[N E]].
    - apply edge_In_get in I; auto. congruence.
    - rewrite E. apply edge_In_get; auto. }
  constructor; apply Forall_forall; intros e I; [apply F1|apply F2]; auto.
Qed.

Lemma unfinished_useful : forall B h0 h b t w frs t0, binv B h0 h b t w frs t0 -> useful t ->
  exists tr, unf h (d_root (b_dawg b)) tr /\ useful tr /\ height tr <= height t /\
    forall u, tin tr u = true <-> tin t u = true /\
      match u, b_prev b with c :: _, d :: _ => c <> d | _, _ => True end.
Proof.
  intros B h0 h b t w frs t0 BI Us.
  destruct (unfinished_tree _ _ _ _ _ _ _ _ BI) as (tr & U & I). exists tr. split; auto.
  enough (useful tr /\ height tr <= height t) by tauto. clear I.
  destruct BI as [Hw I Ht Hh Hp Hn].
  destruct (w_unchecked w) as [|x un] eqn:Eu.
  - pose proof (iv_frames _ _ _ _ _ _ _ I) as F. rewrite Eu in F. inversion F; subst.
    pose proof (iv_top _ _ _ _ _ _ _ I) as U'. rewrite Eu in U'. cbn in *.
    rewrite (unf_det _ _ _ _ U U'). auto.
  - pose proof (iv_frames _ _ _ _ _ _ _ I) as F. rewrite Eu in F.
    destruct (frames_bottom _ _ _ _ t0 F ltac:(discriminate)) as (n & es & c & sub & rest & G & U' & Gc & Fi & La).
    destruct (iv_edges _ _ _ _ _ _ _ I _ (or_introl eq_refl)) as (n' & G' & So & _).
    rewrite G in G'. injection G' as <-.
    assert (Ut : unf h (d_root (b_dawg b)) (T (nfin n) es)).
    { eapply unf_intro; eauto.
      - eapply hget_null_top; eauto. left; auto.
      - repeat split; auto. }
    rewrite (unf_det _ _ _ _ U Ut).
    assert (Se : esorted es). { pose proof (proj1 (unf_tsorted h) _ _ Ut) as X. inversion X; auto. }
    rewrite <- Ht, Fi in *. split; [eapply useful_set; eauto|]. rewrite height_set_new by auto. lia.
Qed.

(** ** The stages of construction *)
Definition stage (B : nat) (h0 : heap) (root : ptr) (h : heap) (b : builder) (es : list event) : Prop :=
  d_root (b_dawg b) = root /\
  ((exists t w frs t0, binv B h0 h b t w frs t0 /\ useful t /\ short B (terms_in es) /\ in_order es) \/
   (exists w frs t0 tr, b_work b = Some w /\ inv B h0 h root w frs t0 /\ unf h root tr /\ height tr <= B /\
      (changes_in es = [] \/ changes_in es = [CleaningUp])) \/
   (changes_in es = [] /\ exists tr, unf h root tr /\ height tr <= B)).

Lemma stage_tree : forall B h0 root h b es, stage B h0 root h b es -> exists tr, unf h root tr /\ height tr <= B.
Proof.
  intros B h0 root h b es (<- & [(t & w & frs & t0 & BI & Us & _)|[(w & frs & t0 & tr & _ & _ & U & H & _)|(_ & X)]]); eauto.
  destruct (unfinished_useful _ _ _ _ _ _ _ _ BI Us) as (tr & U & _ & H & _). exists tr. split; auto.
  pose proof (bi_height _ _ _ _ _ _ _ _ BI). lia.
Qed.

Lemma stage_skip : forall B h0 root h b es, stage B h0 root h b (Incrementing :: es) -> stage B h0 root h b es.
Proof.
  intros B h0 root h b es X. exact X.
Qed.

Section Stage.
  Context {S : Type} (increment : nat -> heap -> S -> res S).
  Variables (alloc : heap -> ptr) (B : nat) (h0 : heap) (root : ptr).
  Hypothesis A : allocator alloc.

  Definition stays_final (h h' : heap) : Prop :=
    forall n, hget h root = Some n -> nfin n = true -> exists n', hget h' root = Some n' /\ nfin n' = true.

  Lemma keeps_final : forall h w h' w', keeps root h w h' w' -> stays_final h h'.
  Proof. intros h w h' w' [_ K] n G F. destruct (K n G) as (n' & G' & _ & X). eauto. Qed.

  (** One event that is not an increment. *)
  Lemma stage_step : forall e es h b, stage B h0 root h b (e :: es) -> is_increment e = false ->
    exists N h1 b1, (forall fuel s rest, N <= fuel -> play increment fuel alloc h b s (e :: rest) = play increment fuel alloc h1 b1 s rest) /\
      stage B h0 root h1 b1 es /\ stays_final h h1.
  Proof.
    intros e es h b (Hr & X) Ni. destruct e as [term| | |]; try discriminate Ni; clear Ni; rewrite changes_cons in X; cbn [is_increment] in X.
    - (* add *)
      destruct X as [(t & w & frs & t0 & BI & Us & Sh & ts & fin & cl & C)|[(w & frs & t0 & tr & _ & _ & _ & _ & C)|(C & _)]];
        [|destruct C; discriminate|discriminate].
      rewrite changes_cons in C. cbn [is_increment] in C.
      destruct ts as [|t1 ts]; [destruct fin, cl; discriminate|]. cbn [map app] in C. injection C as <- C.
      cbn [terms_in flat_map app] in Sh. apply short_cons in Sh. destruct Sh as [Lt Sh].
      assert (O : in_order es) by (exists ts, fin, cl; auto).
      destruct (lex_lt_dec term (b_prev b)) as [Lx|Lx].
      + exists 0, h, b. split; [|split].
        * intros fuel s rest _. cbn [play]. rewrite add_reject by auto. reflexivity.
        * split; auto. left. exists t, w, frs, t0. auto.
        * intros n G F. eauto.
      + destruct (add_keeps alloc B h0 h b t w frs t0 term A BI Lt Lx) as (h1 & b1 & w1 & frs1 & t1' & E1 & BI1 & _ & R1 & _ & K1).
        rewrite Hr in K1, R1. exists B, h1, b1. split; [|split].
        * intros fuel s rest Hf. cbn [play]. rewrite E1 by auto. reflexivity.
        * split; auto. left. exists (tadd t term), w1, frs1, t1'. auto using tadd_useful.
        * eapply keeps_final; eauto.
    - (* finish *)
      destruct X as [(t & w & frs & t0 & BI & Us & Sh & ts & fin & cl & C)|[(w & frs & t0 & tr & _ & _ & _ & _ & C)|(C & _)]];
        [|destruct C; discriminate|discriminate].
      rewrite changes_cons in C. cbn [is_increment] in C.
      destruct ts as [|t1 ts]; [|discriminate]. destruct fin; [|destruct cl; discriminate].
      cbn [map app] in C. injection C as C.
      destruct (finish_keeps B h0 h b t w frs t0 BI) as (h1 & w1 & E1 & I1 & U1 & K1). rewrite Hr in I1, K1.
      exists B, h1, (Builder (b_dawg b) (b_prev b) (Some w1)). split; [|split].
      + intros fuel s rest Hf. cbn [play]. rewrite E1 by auto. reflexivity.
      + split; auto. right. left. exists w1, [], t, t. split; auto. split; auto. split; [|split; [apply BI|destruct cl; auto]].
        pose proof (iv_top _ _ _ _ _ _ _ I1) as U. rewrite U1 in U. exact U.
      + eapply keeps_final; eauto.
    - (* clean_up *)
      assert (exists w frs t0 tr, b_work b = Some w /\ inv B h0 h root w frs t0 /\ unf h root tr /\ height tr <= B /\ changes_in es = [])
        as (w & frs & t0 & tr & Hw & I & U & Hh & C).
      { destruct X as [(t & w & frs & t0 & BI & Us & Sh & ts & fin & cl & C)|[(w & frs & t0 & tr & Hw & I & U & Hh & C)|(C & _)]].
        - rewrite changes_cons in C. cbn [is_increment] in C.
          destruct ts as [|t1 ts]; [|discriminate]. destruct fin; [discriminate|]. destruct cl; [|discriminate].
          injection C as C. destruct (unfinished_useful _ _ _ _ _ _ _ _ BI Us) as (tr & U & _ & H & _). rewrite Hr in U.
          pose proof (bi_height _ _ _ _ _ _ _ _ BI). pose proof (bi_inv _ _ _ _ _ _ _ _ BI) as I. rewrite Hr in I.
          exists w, frs, t0, tr. split; [apply BI|]. split; auto. split; auto. split; auto. lia.
        - destruct C as [C|C]; [discriminate|]. injection C as C. exists w, frs, t0, tr. auto.
        - discriminate. }
      rewrite <- Hr in I. destruct (clean_up_ok B h0 h b w frs t0 Hw I) as (en & h1 & E1 & C1 & _). rewrite Hr in C1.
      exists en, h1, (Builder (b_dawg b) (b_prev b) None). split; [|split].
      + intros fuel s rest Hf. cbn [play]. rewrite E1 by auto. reflexivity.
      + split; auto. right. right. split; auto. exists tr. split; auto.
        eapply unf_frame with (P := reach h root); eauto using reach_closed, reach_refl. intros q Rq. apply C1; auto.
      + intros n G F. exists n. split; auto. rewrite <- G. apply C1, reach_refl.
  Qed.

  Lemma stage_pre : forall pre es h b, stage B h0 root h b (pre ++ es) -> increments_in pre = 0 ->
    exists N h1 b1, (forall fuel s, N <= fuel -> play increment fuel alloc h b s pre = Ok (h1, b1, s)) /\
      (forall fuel s, N <= fuel -> play increment fuel alloc h b s (pre ++ es) = play increment fuel alloc h1 b1 s es) /\
      stage B h0 root h1 b1 es /\ stays_final h h1.
  Proof.
    induction pre as [|e pre IH]; intros es h b X Z.
    - exists 0, h, b. split; [reflexivity|]. split; [reflexivity|]. split; [exact X|]. intros n G F. eauto.
    - rewrite increments_cons in Z. destruct (is_increment e) eqn:Ie; [discriminate|]. cbn [app] in *.
      destruct (stage_step e (pre ++ es) h b X Ie) as (N1 & h1 & b1 & E1 & X1 & F1).
      destruct (IH es h1 b1 X1 Z) as (N2 & h2 & b2 & E2 & E2' & X2 & F2).
      exists (Nat.max N1 N2), h2, b2. split; [|split; [|split; auto]].
      + intros fuel s Hf. rewrite E1 by lia. apply E2. lia.
      + intros fuel s Hf. rewrite E1 by lia. apply E2'. lia.
      + intros n G F. destruct (F1 n G F) as (n1 & G1 & F1'). exact (F2 n1 G1 F1').
  Qed.
End Stage.

(** ** The run of a query *)
Lemma query_after_tree : forall R (rt : result_type R) alg x n h root tr B,
  manageable x n -> (n <= SIZE_MAX)%N -> small_depth B -> unf h root tr -> height tr <= S B ->
  exists M, forall k, exists q, (forall fuel, M < fuel -> query_after rt fuel h (new_transducer alg root) x n k = Ok q) /\
    match nth_error (matches alg x n tr) k with
    | Some w => q_complete q = false /\ q_candidate q = r_update rt w (N.of_nat (dst alg x w))
    | None => q_complete q = true /\ q_candidate q = last (map (fun w => r_update rt w (N.of_nat (dst alg x w))) (matches alg x n tr)) (r_default rt)
    end.
Proof.
  intros R rt alg x n h root tr B Lx Ln SB U Hh.
  destruct (query_after_ok rt h alg x n B Lx Ln SB root tr U Hh) as (M & E). exists M. intros k.
  destruct (E (S M) k ltac:(lia)) as (q & E1 & X). exists q. split; [|exact X].
  intros fuel Hf. unfold query_after, begin_query. cbn [tr_alg tr_root new_transducer].
  clear X. revert E1. change initial_state with [Pos 0 0 false]. generalize (RootI root [Pos 0 0 false]). intros r E1.
  destruct (new_query rt h alg x n (S M) r) as [q0| |] eqn:E0; cbn [rbind] in E1; try discriminate.
  rewrite (new_query_mono rt h alg x n (S M) fuel r q0) by (auto; lia). cbn [rbind].
  eapply increments_mono; eauto.
Qed.

Lemma play_stage : forall S (increment : nat -> heap -> S -> res S) (looks : (ptr -> Prop) -> S -> Prop),
  (forall h fuel fuel' s s', fuel <= fuel' -> increment fuel h s = Ok s' -> increment fuel' h s = Ok s') ->
  (forall (P : ptr -> Prop) h h' fuel s, closed h P -> (forall p, P p -> hget h' p = hget h p) ->
     looks P s -> increment fuel h' s = increment fuel h s) ->
  (forall (P : ptr -> Prop) h fuel s s', closed h P -> looks P s -> increment fuel h s = Ok s' -> looks P s') ->
  forall alloc B h0 root hs h b es, allocator alloc -> stage B h0 root h b es -> result increment looks alloc hs root h b es.
Proof.
  intros S increment looks Mono Same Looks alloc B h0 root hs h b es A (Hr & [(t & w & frs & t0 & BI & Us & Sh & O)|[(w & frs & t0 & tr & Hw & I & _ & _ & C)|(C & _)]]).
  - eapply play_ok; eauto.
  - eapply play_finished; eauto.
  - apply play_cleaned; auto.
Qed.

(** ** The main facts *)
Lemma under_construction_at : forall alloc h0 ts B, allocator alloc -> 1 <= B -> short B ts ->
  exists flags kept h b w frs t0,
    greedy [] ts flags kept /\
    (forall fuel, B <= fuel -> under_construction fuel alloc h0 ts = Ok (flags, h, b)) /\
    binv B h0 h b (trie kept) w frs t0 /\ b_prev b = last kept [] /\
    d_size (b_dawg b) = (N.of_nat (length kept) mod W)%N.
Proof.
  intros alloc h0 ts B A HB Sh. destruct (new_init alloc h0) as (h1 & b1 & E1).
  destruct (new_sorted_dawg_ok alloc B h0 A HB h1 b1 E1) as (BI & P1 & S1).
  destruct (adds_ok alloc A ts B h0 h1 (init b1) leaf _ _ _ BI Sh) as
    (flags & kept & h2 & b2 & w2 & frs2 & t2 & G & E2 & BI2 & P2 & R2 & S2).
  { rewrite S1. unfold W; lia. }
  exists flags, kept, h2, b2, w2, frs2, t2.
  rewrite P1 in *. split; [auto|]. split.
  { intros fuel Hf. unfold under_construction. rewrite E1. auto. }
  split; [exact BI2|]. split; [auto|].
  rewrite S2, S1. unfold wadd. rewrite N.add_0_l. apply N.mod_mod. unfold W; lia.
Qed.

Lemma findable_tree : forall B h0 h b kept w frs t0, binv B h0 h b (trie kept) w frs t0 -> b_prev b = last kept [] ->
  exists tr, unf h (d_root (b_dawg b)) tr /\ tsorted tr /\ height tr <= B /\ forall u, tin tr u = true <-> findable kept u.
Proof.
  intros B h0 h b kept w frs t0 BI P.
  destruct (unfinished_useful _ _ _ _ _ _ _ _ BI (trie_useful kept)) as (tr & U & _ & H & I). exists tr. split; auto.
  split; [eapply unf_tsorted; eauto|]. split.
  - pose proof (bi_height _ _ _ _ _ _ _ _ BI). lia.
  - intros u. rewrite I, tin_trie, P. reflexivity.
Qed.

Definition graded (alg : algorithm) (x : str) (n : N) (tr : tree) : list (str * N) :=
  map (fun w => (w, N.of_nat (dst alg x w))) (matches alg x n tr).

Lemma graded_lists : forall alg x n tr P, tsorted tr -> (forall w, tin tr w = true <-> P w) -> lists alg x n P (graded alg x n tr).
Proof.
  intros alg x n tr P So I. unfold graded, matches. split.
  - rewrite map_map. cbn. rewrite map_id. apply NoDup_filter.
    eapply StronglySorted_NoDup; [|apply words_sorted; exact So]. apply shortlex_irrefl.
  - intros w d. rewrite in_map_iff, edit_distance_dst, <- I, <- (words_In tr w So). split.
    + intros (w' & E & J). injection E as <- <-. apply filter_In in J. rewrite Nnat.Nat2N.id. rewrite N.leb_le in J. tauto.
    + intros (J & E & L). exists w. rewrite <- E, Nnat.N2Nat.id. split; auto. apply filter_In. split; auto. apply N.leb_le.
      rewrite <- E, Nnat.N2Nat.id in *. auto.
Qed.

Lemma graded_shows : forall R (rt : result_type R) alg x n tr k q,
  match nth_error (matches alg x n tr) k with
  | Some w => q_complete q = false /\ q_candidate q = r_update rt w (N.of_nat (dst alg x w))
  | None => q_complete q = true /\ q_candidate q = last (map (fun w => r_update rt w (N.of_nat (dst alg x w))) (matches alg x n tr)) (r_default rt)
  end -> shows rt (graded alg x n tr) k q.
Proof.
  intros R rt alg x n tr k q X. unfold shows, graded. rewrite nth_error_map.
  destruct (nth_error (matches alg x n tr) k); cbn [option_map]; tauto.
Qed.

Lemma query_play : forall R (rt : result_type R) alg x n alloc B h0 h b es, allocator alloc ->
  stage (S B) h0 (d_root (b_dawg b)) h b es -> manageable x n -> (n <= SIZE_MAX)%N -> small_depth B ->
  forall tr, unf h (d_root (b_dawg b)) tr -> height tr <= S B -> ~ (tin tr [] = true /\ (N.of_nat (length x) <= n)%N) ->
  exists q0 h' b' q', runs_to (fun fuel => begin_query rt fuel h (new_transducer alg (d_root (b_dawg b))) x n) q0 /\
    runs_to (fun fuel => play (query_step rt alg x n) fuel alloc h b q0 es) (h', b', q') /\
    shows rt (graded alg x n tr) (increments_in es) q'.
Proof.
  intros R rt alg x n alloc B h0 h b es A St Lx Ln SB tr U Hh Ns. set (root := d_root (b_dawg b)) in *.
  destruct (query_after_tree R rt alg x n h root tr B Lx Ln SB U Hh) as (M & Q).
  destruct (Q 0) as (q0 & E0 & _). destruct (Q (increments_in es)) as (q' & E' & X).
  unfold query_after in E0, E'. cbn [increments] in E0.
  assert (Eb : forall fuel, M < fuel -> begin_query rt fuel h (new_transducer alg root) x n = Ok q0).
  { intros fuel Hf. specialize (E0 fuel Hf). destruct (begin_query _ _ _ _ _ _); cbn [rbind] in E0; auto. }
  assert (W0 : watches (below h root) q0).
  { specialize (Eb (S M) ltac:(lia)). unfold begin_query, new_query in Eb. cbn [tr_alg tr_root new_transducer i_node] in Eb.
    destruct (unf_read _ _ _ U) as (nd & Rd & _ & _ & _ & F). rewrite Rd in Eb. cbn [rbind] in Eb.
    destruct (nfin nd && (N.of_nat (length x) <=? n)%N)%bool eqn:Sp.
    - exfalso. apply Ns. apply andb_prop in Sp. destruct Sp as [Sp1 Sp2]. apply N.leb_le in Sp2. split; auto.
      destruct tr as [f ts]. cbn in F |- *. congruence.
    - eapply first_watches with (rt := rt). exact Eb. }
  destruct (play_stage _ (query_step rt alg x n) watches) with (alloc := alloc) (B := S B) (h0 := h0) (root := root) (hs := h) (h := h) (b := b) (es := es)
    (M := S M) (s := q0) (s' := q') as (N & h' & b' & Ep); auto.
  - intros hh f f' s s' L E. eapply advance_mono; eauto.
  - intros P hh hh' f s. apply query_same.
  - intros P hh f s s'. apply query_watches.
  - apply persists_refl.
  - rewrite repeated_increments. specialize (E' (S M) ltac:(lia)). rewrite Eb in E' by lia. exact E'.
  - exists q0, h', b', q'. split; [exists (S M); intros; apply Eb; lia|]. split; [exists N; auto|]. apply graded_shows; auto.
Qed.

(** When the empty term is the first answer, the root is looked at by the first
    increment. *)
Lemma query_play_empty : forall R (rt : result_type R) alg x n alloc B h0 h b pre es, allocator alloc ->
  stage (S B) h0 (d_root (b_dawg b)) h b (pre ++ Incrementing :: es) -> increments_in pre = 0 ->
  manageable x n -> (n <= SIZE_MAX)%N -> small_depth B ->
  forall tr, unf h (d_root (b_dawg b)) tr -> tin tr [] = true -> (N.of_nat (length x) <= n)%N ->
  exists q0 hs bs h' b' q' tr', runs_to (fun fuel => begin_query rt fuel h (new_transducer alg (d_root (b_dawg b))) x n) q0 /\
    q_complete q0 = false /\ q_candidate q0 = r_update rt [] (N.of_nat (length x)) /\
    runs_to (fun fuel => play (query_step rt alg x n) fuel alloc h b q0 pre) (hs, bs, q0) /\
    d_root (b_dawg bs) = d_root (b_dawg b) /\ unf hs (d_root (b_dawg b)) tr' /\ tin tr' [] = true /\
    runs_to (fun fuel => play (query_step rt alg x n) fuel alloc h b q0 (pre ++ Incrementing :: es)) (h', b', q') /\
    shows rt (graded alg x n tr') (S (increments_in es)) q'.
Proof.
  intros R rt alg x n alloc B h0 h b pre es A St Z Lx Ln SB tr U Te Le. set (root := d_root (b_dawg b)) in *.
  set (q0 := Query [RootI root [Pos 0 0 false]] [] false None (r_update rt [] (N.of_nat (length x))) 0%N 0%N).
  destruct (stage_pre (query_step rt alg x n) alloc (S B) h0 root A pre (Incrementing :: es) h b St Z) as (N1 & hs & bs & E1 & E2 & St1 & Fi).
  destruct (stage_tree _ _ _ _ _ _ St1) as (tr' & U' & Hh').
  destruct (unf_inv _ _ _ U) as (nd & NN & G & So & Un & F).
  assert (Fd : nfin nd = true) by (destruct tr; cbn in *; congruence).
  destruct (Fi nd G Fd) as (nd' & G' & Fd').
  assert (Bg : forall hh m fuel, hget hh root = Some m -> nfin m = true ->
    begin_query rt fuel hh (new_transducer alg root) x n = Ok q0).
  { intros hh m fuel Gm Fm. unfold begin_query, new_query. cbn [tr_alg tr_root new_transducer i_node].
    rewrite (read_ok _ _ _ NN Gm). cbn [rbind]. rewrite Fm. apply N.leb_le in Le. rewrite Le. reflexivity. }
  destruct (query_after_tree R rt alg x n hs root tr' B Lx Ln SB U' Hh') as (M & Q).
  destruct (Q (S (increments_in es))) as (q' & E' & X). specialize (E' (S M) ltac:(lia)).
  unfold query_after in E'. rewrite (Bg hs nd' _ G' Fd') in E'. cbn [rbind increments tr_alg new_transducer] in E'.
  destruct (advance_query rt hs alg x n (S M) q0) as [q1| |] eqn:Ea; cbn [rbind] in E'; try discriminate.
  pose proof (first_watches rt alg x n hs root (S M) _ _ _ q1 Ea) as W1.
  destruct (play_stage _ (query_step rt alg x n) watches) with (alloc := alloc) (B := S B) (h0 := h0) (root := root) (hs := hs) (h := hs) (b := bs) (es := es)
    (M := S M) (s := q1) (s' := q') as (N2 & h' & b' & Ep); auto.
  - intros hh f f' s s' L E. eapply advance_mono; eauto.
  - intros P hh hh' f s. apply query_same.
  - intros P hh f s s'. apply query_watches.
  - apply persists_refl.
  - rewrite repeated_increments. exact E'.
  - exists q0, hs, bs, h', b', q', tr'. split; [exists 0; intros fuel _; eapply Bg; eauto|]. split; [reflexivity|]. split; [reflexivity|].
    split; [exists N1; auto|]. split; [apply St1|]. split; [exact U'|]. split.
    { destruct (unf_inv _ _ _ U') as (m & _ & Gm & _ & _ & Fm). rewrite Gm in G'. injection G' as ->. destruct tr'; cbn in *; congruence. }
    split; [|apply graded_shows; auto].
    exists (N1 + N2 + S M). intros fuel Hf. rewrite E2 by lia. cbn [play]. unfold query_step at 1.
    rewrite (advance_mono rt hs alg x n (S M) fuel q0 q1) by (auto; lia). cbn [rbind]. apply Ep. lia.
Qed.

(** ** Iterators *)
Lemma steps_value : forall k h it q fuel, Forall2 (represents_item h) (it_pending it) q -> qsize q < fuel ->
  exists it', steps_on fuel h k it = Ok it' /\ it_value it' = nth k (it_value it :: enum q) (last (enum q) (it_value it)).
Proof.
  induction k as [|k IH]; intros h it q fuel F L; cbn [steps_on].
  - eexists. split; reflexivity.
  - destruct (advance_ok fuel h it q F L) as (it1 & q1 & E & F1 & L1 & _ & V & En). unfold iter_next. rewrite E. cbn [rbind].
    destruct (IH h (Iter (it_pending it1) (it_value it1) (wadd (it_index it1) 1)) q1 fuel F1 ltac:(lia)) as (it' & E' & V').
    exists it'. split; auto. rewrite V'. cbn [it_value]. rewrite V, En. cbn [nth]. destruct (enum q) as [|v l]; cbn [next_value tl].
    + destruct k; auto. destruct k; auto.
    + rewrite last_cons. auto.
Qed.

Lemma iter_after_value : forall h d t k, unf h (d_root d) t ->
  exists M it0 it, (forall fuel, M <= fuel -> dawg_begin fuel h d = Ok it0) /\
    (forall fuel, M <= fuel -> steps_on fuel h k it0 = Ok it) /\ it_value it = nth k (words t) (last (words t) []).
Proof.
  intros h d t k U.
  destruct (advance_ok (S (qsize [([], t)])) h (Iter [RootPrefix (d_root d)] [] 0%N) [([], t)]) as (it0 & q0 & E & F & L & _ & V & En).
  { cbn. constructor; [|constructor]. split; auto. }
  { lia. }
  change (enum [([], t)]) with (words t) in V, En. cbn [it_value] in V.
  destruct (steps_value k h it0 q0 (S (qsize [([], t)])) F ltac:(lia)) as (it & E' & V').
  exists (S (qsize [([], t)])), it0, it. split.
  { intros fuel Hf. eapply advance_more; eauto. }
  split. { intros fuel Hf. eapply steps_more; eauto. }
  rewrite V', V, En. destruct (words t) as [|v l]; cbn [next_value tl].
  - destruct k; auto. destruct k; auto.
  - rewrite last_cons. auto.
Qed.

Lemma iter_play : forall alloc B h0 h b es, allocator alloc -> stage B h0 (d_root (b_dawg b)) h b es ->
  forall tr, unf h (d_root (b_dawg b)) tr ->
  exists it0 h' b' it', runs_to (fun fuel => dawg_begin fuel h (b_dawg b)) it0 /\
    runs_to (fun fuel => play iter_next fuel alloc h b it0 es) (h', b', it') /\
    it_value it' = nth (increments_in es) (words tr) (last (words tr) []).
Proof.
  intros alloc B h0 h b es A St tr U.
  destruct (iter_after_value h (b_dawg b) tr (increments_in es) U) as (M & it0 & it & E0 & E & V).
  destruct (play_stage _ iter_next watching) with (alloc := alloc) (B := B) (h0 := h0) (root := d_root (b_dawg b)) (hs := h) (h := h) (b := b) (es := es)
    (M := M) (s := it0) (s' := it) as (N & h' & b' & Ep); auto.
  - intros hh f f' s s'. apply iter_next_more.
  - intros P hh hh' f s. apply iter_same.
  - intros P hh f s s'. apply iter_watching.
  - eapply begin_watching. apply (E0 M). auto.
  - apply persists_refl.
  - rewrite repeated_steps. auto.
  - exists it0, h', b', it. split; [exists M; auto|]. split; [exists N; auto|]. auto.
Qed.

Lemma iterate_unfinished : forall h d t n, unf h (d_root d) t -> (d_size d < W)%N -> d_size d = N.of_nat n -> length (words t) <= n ->
  runs_to (fun fuel => iterate fuel h d) (words t ++ repeat (last (words t) []) (n - length (words t))).
Proof.
  intros h d t n U L En Le. exists (tsize t + n + 2). intros fuel Hf. rewrite (iterate_ok fuel h d t n U) by (auto; lia). f_equal.
  destruct (words t) as [|v l]; cbn [next_value tl].
  - cbn [length app last]. rewrite Nat.sub_0_r. clear. induction n; cbn; auto. f_equal; auto.
  - cbn [length] in *. replace n with (S (length l) + (n - S (length l))) at 1 by lia. rewrite emitted_more, last_cons. reflexivity.
Qed.

Lemma graded_empty : forall alg x n tr, tsorted tr -> tin tr [] = true -> (N.of_nat (length x) <= n)%N ->
  hd_error (graded alg x n tr) = Some ([], N.of_nat (length x)).
Proof.
  intros alg x n tr So T L. unfold graded, matches. pose proof (words_sorted tr So) as Sw. apply (words_In tr [] So) in T.
  destruct (words tr) as [|v l]; [contradiction|]. assert (v = []) as ->.
  { destruct T as [->|J]; auto. inversion Sw as [|? ? _ Fa]; subst. rewrite Forall_forall in Fa. specialize (Fa _ J).
    unfold shortlex_lt in Fa. destruct v; auto. cbn in Fa. destruct Fa as [Fa|[Fa _]]; [lia|discriminate]. }
  cbn [filter]. rewrite dst_nil_r. apply N.leb_le in L. rewrite L. cbn [map hd_error]. rewrite dst_nil_r. auto.
Qed.

Lemma greedy_length : forall prev ts flags kept, greedy prev ts flags kept -> length kept <= length ts.
Proof. induction 1; cbn; lia. Qed.

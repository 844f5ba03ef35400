(** * QueryProofs: a query lists the words within the distance, in the order of
    dictionary iteration. *)
From Coq Require Import Sorting.Sorted.
From Verif Require Import Base Spec ModelTransducer ModelDawg ModelQuery SpecDawg AlignProofs TransProofs
  StateProofs TreeProofs HeapProofs IterProofs.
Local Open Scope nat_scope.

Notation item := (list ascii * tree)%type (only parsing).

Lemma last_step : forall A (l : list A) a d, last (a :: l) d = last l a.
Proof.
  induction l as [|b l IH]; intros a d; auto.
  change (last (a :: b :: l) d) with (last (b :: l) d). rewrite !IH. auto.
Qed.

(** ** Dropping hopeless subtrees *)
Section Prune.
  Variable good : str -> bool.

  Definition hopeless (e : item) : Prop := forall u, good (fst e ++ u) = false.

  Inductive pruned : list item -> list item -> Prop :=
  | pruned_nil : pruned [] []
  | pruned_keep : forall e q q', pruned q q' -> pruned (e :: q) (e :: q')
  | pruned_drop : forall e q q', hopeless e -> pruned q q' -> pruned (e :: q) q'.

  Lemma pruned_refl : forall q, pruned q q.
  Proof. induction q; constructor; auto. Qed.

  Lemma pruned_app : forall a a' b b', pruned a a' -> pruned b b' -> pruned (a ++ b) (a' ++ b').
  Proof. intros a a' b b' H. induction H; cbn; intros; auto; constructor; auto. Qed.

  Lemma pruned_children : forall s t es, hopeless (s, t) -> pruned (children s es) [].
  Proof.
    intros s t es H. induction es as [|[c t'] es IH]; cbn; constructor; auto.
    intros u. cbn. rewrite <- app_assoc. apply H.
  Qed.

  Lemma enum_pruned : forall q q', pruned q q' -> filter good (enum q) = filter good (enum q').
  Proof.
    apply (queue_ind (fun q => forall q', pruned q q' -> filter good (enum q) = filter good (enum q'))).
    - intros q' H. inversion H. auto.
    - intros s f es q IH q' H. inversion H; subst.
      + rewrite !enum_cons, !filter_app. f_equal. apply IH. apply pruned_app; auto using pruned_refl.
      + rewrite enum_cons, filter_app.
        assert (E : filter good (if f then [s] else []) = []).
        { destruct f; auto. cbn. specialize (H2 []). cbn in H2. rewrite app_nil_r in H2. rewrite H2. auto. }
        rewrite E. cbn. apply IH. rewrite <- (app_nil_r q'). apply pruned_app; auto.
        eapply pruned_children; eauto.
  Qed.
End Prune.

(** ** What remains to be yielded *)
Definition kids (e : item) : list item := children (fst e) (tedges (snd e)).

Definition remaining (v : str) (es : list (char * tree)) (Q : list item) : list str :=
  enum (children v es ++ flat_map kids Q).

Definition steps (es : list (char * tree)) (Q : list item) : nat :=
  fold_right (fun e m => 2 * tsize (snd e) + m) 0 es +
  fold_right (fun e m => 2 * tsize (snd e) - 1 + m) 0 Q.

Lemma remaining_pop : forall v s t Q, remaining v [] ((s, t) :: Q) = remaining s (tedges t) Q.
Proof. intros. reflexivity. Qed.

Lemma remaining_push : forall v c f es' es Q,
  remaining v ((c, T f es') :: es) Q =
  (if f then [v ++ [c]] else []) ++ remaining v es (Q ++ [(v ++ [c], T f es')]).
Proof.
  intros. unfold remaining. cbn [children map app fst snd]. rewrite enum_cons. f_equal.
  rewrite flat_map_app. cbn [flat_map kids fst snd tedges]. rewrite app_nil_r, <- app_assoc. reflexivity.
Qed.


Lemma steps_pop : forall s f es Q, steps es Q < steps [] ((s, T f es) :: Q).
Proof.
  intros. unfold steps. cbn [fold_right snd]. rewrite sizes_edges.
  assert (fold_right (fun e m => 2 * tsize (snd e) + m) 0 es = 2 * sizes (map snd es)) as ->.
  { unfold sizes. induction es as [|e es IH]; auto. cbn [fold_right map]. rewrite IH. lia. }
  lia.
Qed.

Lemma steps_app : forall Q s t es, steps es (Q ++ [(s, t)]) = steps es Q + (2 * tsize t - 1).
Proof.
  intros. unfold steps. rewrite fold_right_app. cbn [fold_right snd].
  assert (forall k, fold_right (fun e m => 2 * tsize (snd e) - 1 + m) k Q =
    fold_right (fun (e : item) m => 2 * tsize (snd e) - 1 + m) 0 Q + k) as E.
  { intros k. induction Q as [|e Q IH]; cbn [fold_right]; auto. rewrite IH. lia. }
  rewrite E. lia.
Qed.

Lemma steps_push : forall v c t es Q, steps es (Q ++ [(v ++ [c], t)]) < steps ((c, t) :: es) Q.
Proof.
  intros. rewrite steps_app. unfold steps. cbn [fold_right snd]. pose proof (tsize_pos t). lia.
Qed.

Lemma steps_skip : forall c t es Q, steps es Q < steps ((c, t) :: es) Q.
Proof. intros. unfold steps. cbn [fold_right snd]. pose proof (tsize_pos t). lia. Qed.

(** ** More fuel does not change an outcome *)
Section Mono.
  Context {R : Type} (rt : result_type R).
  Variables (h : heap) (alg : algorithm) (x : str) (n : N).

  Lemma loop_mono : forall fuel fuel' q r, fuel <= fuel' ->
    advance_query_loop rt h alg x n fuel q = Ok r -> advance_query_loop rt h alg x n fuel' q = Ok r.
  Proof.
    induction fuel as [|fuel IH]; intros fuel' q r L E; [discriminate|].
    destruct fuel' as [|fuel']; [lia|]. cbn [advance_query_loop] in *.
    destruct (advance_step rt h alg x n q) as [[[|] q']| |]; cbn [rbind] in *; auto.
    destruct (has_work q'); auto. apply IH; auto. lia.
  Qed.

  Lemma advance_mono : forall fuel fuel' q r, fuel <= fuel' ->
    advance_query rt h alg x n fuel q = Ok r -> advance_query rt h alg x n fuel' q = Ok r.
  Proof.
    unfold advance_query. intros fuel fuel' q r L. destruct (has_work q); auto. apply loop_mono; auto.
  Qed.

  Lemma new_query_mono : forall fuel fuel' root r, fuel <= fuel' ->
    new_query rt h alg x n fuel root = Ok r -> new_query rt h alg x n fuel' root = Ok r.
  Proof.
    unfold new_query. intros fuel fuel' root r L. destruct (read h (i_node root)); cbn [rbind]; auto.
    destruct (_ && _)%bool; auto. apply advance_mono; auto.
  Qed.

  Lemma increments_mono : forall k fuel fuel' q r, fuel <= fuel' ->
    increments rt h alg x n fuel k q = Ok r -> increments rt h alg x n fuel' k q = Ok r.
  Proof.
    induction k as [|k IH]; intros fuel fuel' q r L E; cbn [increments] in *; auto.
    destruct (advance_query rt h alg x n fuel q) as [q'| |] eqn:E1; cbn [rbind] in E; try discriminate.
    rewrite (advance_mono fuel fuel' q q' L E1). cbn [rbind]. eapply IH; eauto.
  Qed.
End Mono.

(** ** The invariant *)
Section Run.
  Context {R : Type} (rt : result_type R).
  Variables (h : heap) (alg : algorithm) (x : str) (n : N) (B : nat).
  Hypothesis Hx : manageable x n.
  Hypothesis Hn : (n <= SIZE_MAX)%N.
  Hypothesis HB : small_depth B.

  Let good (w : str) : bool := (N.of_nat (dst alg x w) <=? n)%N.
  Let yield (w : str) : R := r_update rt w (N.of_nat (dst alg x w)).

  Record ritem (i : intersection) (e : item) : Prop := {
    ri_str : i_str i = fst e;
    ri_unf : unf h (i_node i) (snd e);
    ri_rep : represents alg x n (fst e) (i_state i);
    ri_low : length (fst e) + height (snd e) <= S B;
  }.

  Record rquery (q : query R) (v : str) (es : list (char * tree)) (Q : list item) : Prop := {
    rq_pending : Forall2 ritem (q_pending q) Q;
    rq_edges : unfs h (q_edges q) es;
    rq_low : forall c t, In (c, t) es -> S (length v) + height t <= S B;
    rq_current : q_edges q <> [] -> exists i hd tl, q_current q = Some i /\ i_str i = v /\
      i_state i = hd :: tl /\ represents alg x n v (hd :: tl) /\
      q_i q = ti hd /\ q_k q = query_k (query_a n) (N.of_nat (length x)) (ti hd);
  }.

  Lemma small_le : forall a, a <= B -> small_depth a.
  Proof. unfold small_depth in *. lia. Qed.

  Lemma step_ok : forall q v es Q, rquery q v es Q -> has_work q = true ->
    exists broke q' v' es' Q',
      advance_step rt h alg x n q = Ok (broke, q') /\ rquery q' v' es' Q' /\
      steps es' Q' < steps es Q /\
      (if broke : bool then
         exists w, filter good (remaining v es Q) = w :: filter good (remaining v' es' Q') /\
           q_candidate q' = yield w /\ q_complete q' = false
       else filter good (remaining v es Q) = filter good (remaining v' es' Q') /\
         q_candidate q' = q_candidate q /\ q_complete q' = q_complete q).
  Proof.
    intros q v es Q [Hp He Hl Hc] HW. unfold advance_step.
    destruct (q_edges q) as [|[c p] edges] eqn:Eq.
    - inversion He; subst. destruct (q_pending q) as [|i rest] eqn:Ep.
      { unfold has_work in HW. rewrite Eq, Ep in HW. discriminate. }
      inversion Hp as [|? [s t] ? Q' Hi Hr]; subst. destruct Hi as [I1 I2 I3 I4]. cbn [fst snd] in *.
      destruct (i_state i) as [|hd tl] eqn:Es.
      { destruct I3 as [(X & _) _]. congruence. }
      destruct (unf_read _ _ _ I2) as (nd & Rd & G & So & U & F). rewrite Rd. cbn [rbind].
      eexists false, _, s, (tedges t), Q'. split; [reflexivity|].
      split.
      { constructor; cbn [q_pending q_edges q_current q_i q_k]; auto.
        - intros c t' I. destruct t as [f es']. cbn [tedges] in I. pose proof (height_edge _ f _ _ I). lia.
        - intros _. exists i, hd, tl. rewrite Es. auto 10. }
      split. { destruct t as [f es']. apply steps_pop. }
      split; [reflexivity|]. auto.
    - destruct (Hc ltac:(discriminate)) as (i & hd & tl & C1 & C2 & C3 & C4 & C5 & C6).
      inversion He as [|? ? t ? es' Ut Ue]; subst.
      rewrite C1. cbn [deref rbind]. rewrite C5, C6, C3.
      pose proof (Hl c t (or_introl eq_refl)) as Lt. pose proof (height_pos t) as Hp1.
      destruct (represents_step alg x n (i_str i) c hd tl Hx Hn ltac:(apply small_le; lia) C4) as (cv & Ecv & o & Eo & Ho).
      rewrite Ecv. cbn [rbind]. rewrite Eo. cbn [rbind].
      assert (Low' : forall c t, In (c, t) es' -> S (length (i_str i)) + height t <= S B).
      { intros. eapply Hl. right; eauto. }
      assert (Cur' : edges <> [] -> exists i0 hd0 tl0, Some i = Some i0 /\ i_str i0 = i_str i /\
        i_state i0 = hd0 :: tl0 /\ represents alg x n (i_str i) (hd0 :: tl0) /\
        ti hd = ti hd0 /\ query_k (query_a n) (N.of_nat (length x)) (ti hd) = query_k (query_a n) (N.of_nat (length x)) (ti hd0)).
      { intros _. exists i, hd, tl. auto 10. }
      destruct o as [st|].
      + destruct (unf_read _ _ _ Ut) as (nd & Rd & G & So & U & F). rewrite Rd. cbn [rbind].
        assert (Ri : ritem (ChildI c p st i) (i_str i ++ [c], t)).
        { constructor; cbn; auto. rewrite app_length. cbn. lia. }
        assert (Rp : Forall2 ritem (q_pending q ++ [ChildI c p st i]) (Q ++ [(i_str i ++ [c], t)])).
        { apply Forall2_app; auto. }
        assert (Sd : small_depth (length (i_str i ++ [c]))).
        { apply small_le. rewrite app_length. cbn. lia. }
        destruct (represents_distance alg x n (i_str i ++ [c]) st Hx Hn Sd Ho) as [D1 D2].
        destruct t as [f ts]. cbn in F. subst f.
        destruct (nfin nd) eqn:Fn.
        * destruct (N.leb_spec (distance alg st (N.of_nat (length x))) n) as [Le|Gt].
          -- eexists true, _, (i_str i), es', _. split; [reflexivity|].
             split; [constructor; cbn; eauto|]. split; [apply steps_push|].
             exists (i_str i ++ [c]). rewrite remaining_push, filter_app. cbn [filter].
             assert (good (i_str i ++ [c]) = true) as ->. { unfold good. apply N.leb_le, D1, Le. }
             split; [reflexivity|]. cbn [q_candidate q_complete]. split; auto.
             unfold yield. cbn [i_str]. f_equal. apply D2; auto.
          -- eexists false, _, (i_str i), es', _. split; [reflexivity|].
             split; [constructor; cbn; eauto|]. split; [apply steps_push|].
             rewrite remaining_push, filter_app. cbn [filter].
             assert (good (i_str i ++ [c]) = false) as ->.
             { unfold good. apply N.leb_gt. apply N.nle_gt. intros X. apply D1 in X. lia. }
             split; [reflexivity|]. auto.
        * eexists false, _, (i_str i), es', _. split; [reflexivity|].
          split; [constructor; cbn; eauto|]. split; [apply steps_push|].
          rewrite remaining_push. split; [reflexivity|]. auto.
      + eexists false, _, (i_str i), es', Q. split; [reflexivity|].
        split; [constructor; cbn; eauto|]. split; [apply steps_skip|].
        split; [|auto]. unfold remaining. apply enum_pruned. cbn [children map app].
        apply pruned_drop; [|apply pruned_refl].
        intros u. cbn. unfold good. apply N.leb_gt. rewrite <- app_assoc. apply Ho.
  Qed.

  Lemma no_work : forall q v es Q, rquery q v es Q -> has_work q = false -> remaining v es Q = [].
  Proof.
    intros q v es Q [Hp He _ _] H. unfold has_work in H.
    destruct (q_edges q); [|discriminate]. destruct (q_pending q); [|discriminate].
    inversion Hp; inversion He; subst. reflexivity.
  Qed.

  Definition after (q : query R) (M : nat) (L : list str) : Prop :=
    exists v es Q, rquery q v es Q /\ filter good (remaining v es Q) = L /\ steps es Q <= M.

  Lemma loop_ok : forall fuel q v es Q, rquery q v es Q -> has_work q = true -> steps es Q < fuel ->
    exists q', advance_query_loop rt h alg x n fuel q = Ok q' /\
      match filter good (remaining v es Q) with
      | [] => q_complete q' = q_complete q /\ q_candidate q' = q_candidate q /\ after q' (steps es Q) []
      | w :: L => q_complete q' = false /\ q_candidate q' = yield w /\ after q' (steps es Q) L
      end.
  Proof.
    induction fuel as [|fuel IH]; intros q v es Q Hq HW Hf; [lia|].
    destruct (step_ok q v es Q Hq HW) as (broke & q' & v' & es' & Q' & E & Hq' & Hs & Hb).
    cbn [advance_query_loop]. rewrite E. cbn [rbind]. destruct broke.
    - destruct Hb as (w & Ew & Hc & Hd). exists q'. split; auto. rewrite Ew. split; auto. split; auto.
      exists v', es', Q'. split; auto. split; auto. lia.
    - destruct Hb as (Ew & Hc & Hd). rewrite Ew. destruct (has_work q') eqn:HW'.
      + destruct (IH q' v' es' Q' Hq' HW' ltac:(lia)) as (q2 & E2 & X). exists q2. split; auto.
        assert (mono : forall L, after q2 (steps es' Q') L -> after q2 (steps es Q) L).
        { intros L (a & b & c & A1 & A2 & A3). exists a, b, c. split; auto. split; auto. lia. }
        destruct (filter good (remaining v' es' Q')); destruct X as (X1 & X2 & X3).
        * split; [congruence|]. split; [congruence|auto].
        * auto.
      + exists q'. split; auto. pose proof (no_work _ _ _ _ Hq' HW') as E0. rewrite E0. cbn.
        split; auto. split; auto. exists v', es', Q'. split; auto. rewrite E0. split; auto. lia.
  Qed.

  Lemma advance_query_ok : forall q M L fuel, after q M L -> M < fuel ->
    exists q', advance_query rt h alg x n fuel q = Ok q' /\
      match L with
      | [] => q_complete q' = true /\ q_candidate q' = q_candidate q /\ after q' M []
      | w :: L' => q_complete q' = false /\ q_candidate q' = yield w /\ after q' M L'
      end.
  Proof.
    intros q M L fuel (v & es & Q & Hq & HL & HM) Hf. unfold advance_query.
    assert (Hq' : rquery (set_complete q) v es Q).
    { destruct Hq. constructor; auto. }
    destruct (has_work q) eqn:HW.
    - destruct (loop_ok fuel (set_complete q) v es Q Hq' HW ltac:(lia)) as (q' & E & X).
      exists q'. split; auto. rewrite HL in X.
      assert (mono : forall L, after q' (steps es Q) L -> after q' M L).
      { intros L0 (a & b & c & A1 & A2 & A3). exists a, b, c. split; auto. split; auto. lia. }
      destruct L; destruct X as (X1 & X2 & X3); auto.
    - exists (set_complete q). split; auto. rewrite (no_work _ _ _ _ Hq HW) in HL. cbn in HL. subst L.
      split; auto. split; auto. exists v, es, Q. split; auto. split; auto.
      rewrite (no_work _ _ _ _ Hq HW). auto.
  Qed.

  (** No undefined behaviour, whatever the fuel. *)
  Lemma loop_no_ub : forall fuel q v es Q, rquery q v es Q -> has_work q = true ->
    advance_query_loop rt h alg x n fuel q <> UB.
  Proof.
    induction fuel as [|fuel IH]; intros q v es Q Hq HW; cbn [advance_query_loop]; [discriminate|].
    destruct (step_ok q v es Q Hq HW) as (broke & q' & v' & es' & Q' & E & Hq' & _).
    rewrite E. cbn [rbind]. destruct broke; [discriminate|].
    destruct (has_work q') eqn:HW'; [eauto|discriminate].
  Qed.

  Lemma advance_no_ub : forall fuel q M L, after q M L ->
    advance_query rt h alg x n fuel q <> UB /\
    forall q', advance_query rt h alg x n fuel q = Ok q' -> exists L', after q' M L'.
  Proof.
    intros fuel q M L A. split.
    - destruct A as (v & es & Q & Hq & _). unfold advance_query.
      destruct (has_work q) eqn:HW; [|discriminate].
      apply loop_no_ub with (v := v) (es := es) (Q := Q); auto. destruct Hq. constructor; auto.
    - intros q' E. destruct (advance_query_ok q M L (fuel + S M) A ltac:(lia)) as (q2 & E2 & X).
      assert (Ok q' = Ok q2) as X1.
      { rewrite <- E2. symmetry. eapply advance_mono; [|exact E]. lia. }
      injection X1 as <-. destruct L; destruct X as (_ & _ & X); eauto.
  Qed.

  Lemma increments_no_ub : forall k fuel q M L, after q M L -> increments rt h alg x n fuel k q <> UB.
  Proof.
    induction k as [|k IH]; intros fuel q M L A; cbn [increments]; [discriminate|].
    destruct (advance_no_ub fuel q M L A) as [N1 N2].
    destruct (advance_query rt h alg x n fuel q) as [q'| |]; cbn [rbind]; [|tauto|discriminate].
    destruct (N2 q' eq_refl) as (L' & A'). eauto.
  Qed.

  Variables (root : ptr) (t : tree).
  Hypothesis Ht : unf h root t.
  Hypothesis Hh : height t <= S B.

  Definition matches : list str := filter good (words t).

  Lemma new_query_in : forall fuel, steps [] [([], t)] < fuel ->
    exists q, new_query rt h alg x n fuel (RootI root initial_state) = Ok q /\
      match matches with
      | [] => q_complete q = true /\ q_candidate q = r_default rt /\ after q (steps [] [([], t)]) []
      | w :: L => q_complete q = false /\ q_candidate q = yield w /\ after q (steps [] [([], t)]) L
      end.
  Proof.
    intros fuel Hf. unfold new_query. cbn [i_node].
    destruct (unf_read _ _ _ Ht) as (nd & Rd & G & So & U & F). rewrite Rd. cbn [rbind].
    set (q0 := fun cand : R => Query [RootI root initial_state] [] false None cand 0%N 0%N).
    assert (Hq : forall cand, rquery (q0 cand) [] [] [([], t)]).
    { intros cand. constructor; cbn.
      - constructor; [constructor; cbn; auto using represents_initial|constructor].
      - constructor.
      - tauto.
      - congruence. }
    assert (Ew : words t = (if nfin nd then [[]] else []) ++ remaining [] [] [([], t)]).
    { unfold words, remaining. destruct t as [f es]. cbn in F. subst f. rewrite enum_cons.
      cbn [children map app flat_map kids fst snd tedges]. rewrite app_nil_r. reflexivity. }
    assert (Hd : dst alg x [] = length x) by (apply dst_nil_r).
    assert (Hg : good [] = (N.of_nat (length x) <=? n)%N) by (unfold good; rewrite Hd; auto).
    assert (Adv : filter good (words t) = filter good (remaining [] [] [([], t)]) ->
      exists q, advance_query rt h alg x n fuel (q0 (r_default rt)) = Ok q /\
      match matches with
      | [] => q_complete q = true /\ q_candidate q = r_default rt /\ after q (steps [] [([], t)]) []
      | w :: L => q_complete q = false /\ q_candidate q = yield w /\ after q (steps [] [([], t)]) L
      end).
    { intros E. destruct (advance_query_ok (q0 (r_default rt)) (steps [] [([], t)]) matches fuel) as (q & E1 & X); auto.
      - exists [], [], [([], t)]. split; [apply Hq|]. split; [symmetry; exact E|lia].
      - exists q. split; auto. }
    destruct (nfin nd) eqn:Fn; cbn [andb].
    - rewrite <- Hg. destruct (good []) eqn:Gd.
      + exists (q0 (r_update rt [] (N.of_nat (length x)))). split; [reflexivity|].
        unfold matches. rewrite Ew, filter_app. cbn [filter]. rewrite Gd. cbn [app].
        split; auto. split. { unfold yield. rewrite Hd. auto. }
        exists [], [], [([], t)]. split; [apply Hq|]. split; auto.
      + apply Adv. rewrite Ew, filter_app. cbn [filter]. rewrite Gd. auto.
    - apply Adv. rewrite Ew. auto.
  Qed.

  Lemma new_query_ok : exists M, forall fuel, M < fuel ->
    exists q, new_query rt h alg x n fuel (RootI root initial_state) = Ok q /\
      match matches with
      | [] => q_complete q = true /\ q_candidate q = r_default rt /\ after q M []
      | w :: L => q_complete q = false /\ q_candidate q = yield w /\ after q M L
      end.
  Proof. exists (steps [] [([], t)]). exact new_query_in. Qed.

  Lemma increments_ok : forall k q M L fuel, after q M L -> M < fuel ->
    exists q', increments rt h alg x n fuel k q = Ok q' /\ after q' M (skipn k L) /\
      match k with
      | O => q' = q
      | S k' => match nth_error L k' with
                | Some w => q_complete q' = false /\ q_candidate q' = yield w
                | None => q_complete q' = true /\ q_candidate q' = last (map yield L) (q_candidate q)
                end
      end.
  Proof.
    induction k as [|k IH]; intros q M L fuel A Hf; cbn [increments].
    - exists q. auto.
    - destruct (advance_query_ok q M L fuel A Hf) as (q1 & E1 & X). rewrite E1. cbn [rbind].
      destruct L as [|w L].
      + destruct X as (X1 & X2 & X3). destruct (IH q1 M [] fuel X3 Hf) as (q2 & E2 & A2 & Y).
        exists q2. split; auto. split. { rewrite skipn_nil in *. auto. }
        destruct k; cbn in *.
        * subst q2. auto.
        * destruct k; cbn in Y; destruct Y as [Y1 Y2]; split; auto; congruence.
      + destruct X as (X1 & X2 & X3). destruct (IH q1 M L fuel X3 Hf) as (q2 & E2 & A2 & Y).
        exists q2. split; auto. split; auto. destruct k.
        * subst q2. cbn. auto.
        * change (nth_error (w :: L) (S k)) with (nth_error L k).
          destruct (nth_error L k); auto. destruct Y as [Y1 Y2]. split; auto.
          rewrite Y2, X2. cbn [map]. symmetry. apply last_step.
  Qed.

  Lemma query_after_ok : exists M, forall fuel k, M < fuel ->
    exists q, (do q <- new_query rt h alg x n fuel (RootI root initial_state); increments rt h alg x n fuel k q) = Ok q /\
      match nth_error matches k with
      | Some w => q_complete q = false /\ q_candidate q = yield w
      | None => q_complete q = true /\ q_candidate q = last (map yield matches) (r_default rt)
      end.
  Proof.
    destruct new_query_ok as (M & H). exists M. intros fuel k Hf.
    destruct (H fuel Hf) as (q & E & X). rewrite E. cbn [rbind].
    destruct matches as [|w L].
    - destruct X as (X1 & X2 & X3). destruct (increments_ok k q M [] fuel X3 Hf) as (q' & E' & A & Y).
      exists q'. split; auto. destruct k; cbn in *.
      + subst. auto.
      + destruct k; cbn in Y; destruct Y; split; congruence.
    - destruct X as (X1 & X2 & X3). destruct (increments_ok k q M L fuel X3 Hf) as (q' & E' & A & Y).
      exists q'. split; auto. destruct k.
      + subst. cbn. auto.
      + change (nth_error (w :: L) (S k)) with (nth_error L k). destruct (nth_error L k); auto.
        destruct Y as [Y1 Y2]. split; auto. rewrite Y2, X2. cbn [map]. symmetry. apply last_step.
  Qed.

  Lemma query_after_no_ub : forall fuel k,
    (do q <- new_query rt h alg x n fuel (RootI root initial_state); increments rt h alg x n fuel k q) <> UB.
  Proof.
    intros fuel k. destruct new_query_ok as (M & H).
    destruct (H (fuel + S M) ltac:(lia)) as (q & E & X).
    destruct (new_query rt h alg x n fuel (RootI root initial_state)) as [q'| |] eqn:E1; cbn [rbind]; [| |discriminate].
    - assert (Ok q = Ok q') as Y.
      { rewrite <- E. eapply new_query_mono; [|exact E1]. lia. }
      injection Y as <-. destruct matches; destruct X as (_ & _ & X); eapply increments_no_ub; eauto.
    - exfalso. clear E X. unfold new_query in E1. cbn [i_node] in E1.
      destruct (unf_read _ _ _ Ht) as (nd & Rd & _). rewrite Rd in E1. cbn [rbind] in E1.
      destruct (_ && _)%bool; [discriminate|].
      eapply (advance_no_ub fuel _ (steps [] [([], t)]) (filter good (remaining [] [] [([], t)]))); [|exact E1].
      exists [], [], [([], t)]. split; [|auto]. constructor; cbn.
      + constructor; [constructor; cbn; auto using represents_initial|constructor].
      + constructor.
      + tauto.
      + congruence.
  Qed.

  Lemma collect_ok : forall L rounds fuel q M, after q M L -> M < fuel -> S (length L) < rounds ->
    q_complete q = false -> collect rt h alg x n rounds fuel q = Ok (q_candidate q :: map yield L).
  Proof.
    induction L as [|w L IH]; intros rounds fuel q M A Hf Hr Hc; cbn [length] in Hr;
      (destruct rounds as [|rounds]; [lia|]); cbn [collect]; unfold query_eq; rewrite Hc;
      destruct (advance_query_ok q M _ fuel A Hf) as (q' & E & X1 & X2 & X3); rewrite E; cbn [rbind].
    - destruct rounds as [|rounds]; [lia|]. cbn [collect]. unfold query_eq. rewrite X1. auto.
    - rewrite (IH rounds fuel q' M X3 Hf) by (auto; lia). cbn. rewrite X2. auto.
  Qed.

  Lemma query_all_in : forall fuel, steps [] [([], t)] + length matches + 2 < fuel ->
    (do q <- new_query rt h alg x n fuel (RootI root initial_state); collect rt h alg x n fuel fuel q) = Ok (map yield matches).
  Proof.
    intros fuel Hf. destruct (new_query_in fuel ltac:(lia)) as (q & E & X). rewrite E. cbn [rbind].
    destruct matches as [|w L].
    - destruct X as (X1 & _ & _). destruct fuel; [lia|]. cbn [collect]. unfold query_eq. rewrite X1. auto.
    - destruct X as (X1 & X2 & X3). cbn [length] in Hf.
      rewrite (collect_ok L fuel fuel q _ X3) by (auto; lia). rewrite X2. auto.
  Qed.

  Lemma query_all_ok : exists M, forall fuel, M < fuel ->
    (do q <- new_query rt h alg x n fuel (RootI root initial_state); collect rt h alg x n fuel fuel q) = Ok (map yield matches).
  Proof. exists (steps [] [([], t)] + length matches + 2). exact query_all_in. Qed.
End Run.

(** * RoundProofs: queries on dictionaries in which one can go round. *)
From Coq Require Import Sorting.Sorted.
From Verif Require Import Base Spec ModelTransducer ModelDawg ModelQuery SpecDawg SpecQuery SpecSnapshot SpecLimits AlignProofs TransProofs
  StateProofs TreeProofs HeapProofs IterProofs QueryProofs QueryFacts SnapshotProofs PropsDawg.
From Verif Require ReadProofs.
Local Open Scope nat_scope.

(** ** The first [k] levels below a node *)
Fixpoint near (h : heap) (k : nat) (p : ptr) (t : tree) : Prop :=
  p <> null /\ exists n, hget h p = Some n /\ esorted (nedges n) /\ nfin n = tfin t /\
  match k with
  | O => tedges t = []
  | S k' => Forall2 (fun e f => fst e = fst f /\ near h k' (snd e) (snd f)) (nedges n) (tedges t)
  end.

Definition nears (h : heap) (k : nat) (es : list (char * ptr)) (ts : list (char * tree)) : Prop :=
  Forall2 (fun e f => fst e = fst f /\ near h k (snd e) (snd f)) es ts.

Lemma near_read : forall h k p t, near h k p t -> exists n, read h p = Ok n /\ hget h p = Some n /\ esorted (nedges n) /\ nfin n = tfin t /\
  match k with O => tedges t = [] | S k' => nears h k' (nedges n) (tedges t) end.
Proof. intros h [|k] p t (N & n & G & S & F & E); exists n; (split; [now apply read_ok|]); auto. Qed.

(** ** The invariant *)
Section Walk.
  Context {R : Type} (rt : result_type R).
  Variables (h : heap) (alg : algorithm) (x : str) (n : N) (B : nat).
  Hypothesis Hx : manageable x n.
  Hypothesis Hn : (n <= SIZE_MAX)%N.
  Hypothesis HB : small_depth B.
  Hypothesis HxB : length x + N.to_nat n < B.

  Let good (w : str) : bool := (N.of_nat (dst alg x w) <=? n)%N.
  Let yield (w : str) : R := r_update rt w (N.of_nat (dst alg x w)).

  Record witem (i : intersection) (e : item) : Prop := {
    ri_str : i_str i = fst e;
    ri_unf : near h (B - length (fst e)) (i_node i) (snd e);
    ri_rep : represents alg x n (fst e) (i_state i);
    ri_low : length (fst e) + height (snd e) <= S B;
  }.

  Record wquery (q : query R) (v : str) (es : list (char * tree)) (Q : list item) : Prop := {
    rq_pending : Forall2 witem (q_pending q) Q;
    rq_edges : nears h (B - S (length v)) (q_edges q) es;
    rq_low : forall c t, In (c, t) es -> S (length v) + height t <= S B;
    rq_current : q_edges q <> [] -> exists i hd tl, q_current q = Some i /\ i_str i = v /\
      i_state i = hd :: tl /\ represents alg x n v (hd :: tl) /\
      q_i q = ti hd /\ q_k q = query_k (query_a n) (N.of_nat (length x)) (ti hd);
  }.

  Lemma small_le : forall a, a <= B -> small_depth a.
  Proof. unfold small_depth in *. lia. Qed.

  Lemma step_ok : forall q v es Q, wquery q v es Q -> has_work q = true ->
    exists broke q' v' es' Q',
      advance_step rt h alg x n q = Ok (broke, q') /\ wquery q' v' es' Q' /\
      steps es' Q' < steps es Q /\
      (if broke : bool then
         exists w, filter good (remaining v es Q) = w :: filter good (remaining v' es' Q') /\
           q_candidate q' = yield w /\ q_complete q' = false
       else filter good (remaining v es Q) = filter good (remaining v' es' Q') /\
         q_candidate q' = q_candidate q /\ q_complete q' = q_complete q).
  Proof.
    intros q v es Q [Hp He Hl Hc] HW. unfold advance_step.
    destruct (q_edges q) as [|[c p] edges] eqn:Eq.
    - inversion He; subst. destruct (q_pending q) as [|i rest] eqn:Ep.
      { unfold has_work in HW. rewrite Eq, Ep in HW. discriminate. }
      inversion Hp as [|? [s t] ? Q' Hi Hr]; subst. destruct Hi as [I1 I2 I3 I4]. cbn [fst snd] in *.
      destruct (i_state i) as [|hd tl] eqn:Es.
      { destruct I3 as [(X & _) _]. congruence. }
      assert (Ls : length s < B).
      { destruct (ReadProofs.represents_lives _ _ _ _ _ I3) as (u & Hu). pose proof (dst_len alg x (s ++ u)). rewrite app_length in *. lia. }
      replace (B - length s) with (S (B - S (length s))) in I2 by lia.
      destruct (near_read _ _ _ _ I2) as (nd & Rd & G & So & F & U). rewrite Rd. cbn [rbind].
      eexists false, _, s, (tedges t), Q'. split; [reflexivity|].
      split.
      { constructor; cbn [q_pending q_edges q_current q_i q_k]; auto.
        - intros c t' I. destruct t as [f es']. cbn [tedges] in I. pose proof (height_edge _ f _ _ I). lia.
        - intros _. exists i, hd, tl. rewrite Es. auto 10. }
      split. { destruct t as [f es']. apply steps_pop. }
      split; [reflexivity|]. auto.
    - destruct (Hc ltac:(discriminate)) as (i & hd & tl & C1 & C2 & C3 & C4 & C5 & C6).
      inversion He as [|? [c' t] ? es' [Ec Ut] Ue]; subst. cbn [fst snd] in Ec, Ut. subst c'.
      rewrite C1. cbn [deref rbind]. rewrite C5, C6, C3.
      pose proof (Hl c t (or_introl eq_refl)) as Lt. pose proof (height_pos t) as Hp1.
      destruct (represents_step alg x n (i_str i) c hd tl Hx Hn ltac:(apply small_le; lia) C4) as (cv & Ecv & o & Eo & Ho).
      rewrite Ecv. cbn [rbind]. rewrite Eo. cbn [rbind].
      assert (Low' : forall c t, In (c, t) es' -> S (length (i_str i)) + height t <= S B).
      { intros. eapply Hl. right; eauto. }
      assert (Cur' : edges <> [] -> exists i0 hd0 tl0, Some i = Some i0 /\ i_str i0 = i_str i /\
        i_state i0 = hd0 :: tl0 /\ represents alg x n (i_str i) (hd0 :: tl0) /\
        ti hd = ti hd0 /\ query_k (query_a n) (N.of_nat (length x)) (ti hd) = query_k (query_a n) (N.of_nat (length x)) (ti hd0)).
      { intros _. exists i, hd, tl. auto 10. }
      destruct o as [st|].
      + destruct (near_read _ _ _ _ Ut) as (nd & Rd & G & So & F & U). rewrite Rd. cbn [rbind].
        assert (Ri : witem (ChildI c p st i) (i_str i ++ [c], t)).
        { constructor; cbn [i_str i_node i_state fst snd]; auto; rewrite app_length; cbn [length]; [|lia]. now replace (length (i_str i) + 1) with (S (length (i_str i))) by lia. }
        assert (Rp : Forall2 witem (q_pending q ++ [ChildI c p st i]) (Q ++ [(i_str i ++ [c], t)])).
        { apply Forall2_app; auto. }
        assert (Sd : small_depth (length (i_str i ++ [c]))).
        { apply small_le. rewrite app_length. cbn. lia. }
        destruct (represents_distance alg x n (i_str i ++ [c]) st Hx Hn Sd Ho) as [D1 D2].
        destruct t as [f ts]. cbn in F. subst f.
        destruct (nfin nd) eqn:Fn.
        * destruct (N.leb_spec (distance alg st (N.of_nat (length x))) n) as [Le|Gt].
          -- eexists true, _, (i_str i), es', _. split; [reflexivity|].
             split; [constructor; cbn; eauto|]. split; [apply steps_push|].
             exists (i_str i ++ [c]). rewrite remaining_push, filter_app. cbn [filter].
             assert (good (i_str i ++ [c]) = true) as ->. { unfold good. apply N.leb_le, D1, Le. }
             split; [reflexivity|]. cbn [q_candidate q_complete]. split; auto.
             unfold yield. cbn [i_str]. f_equal. apply D2; auto.
          -- eexists false, _, (i_str i), es', _. split; [reflexivity|].
             split; [constructor; cbn; eauto|]. split; [apply steps_push|].
             rewrite remaining_push, filter_app. cbn [filter].
             assert (good (i_str i ++ [c]) = false) as ->.
             { unfold good. apply N.leb_gt. apply N.nle_gt. intros X. apply D1 in X. lia. }
             split; [reflexivity|]. auto.
        * eexists false, _, (i_str i), es', _. split; [reflexivity|].
          split; [constructor; cbn; eauto|]. split; [apply steps_push|].
          rewrite remaining_push. split; [reflexivity|]. auto.
      + eexists false, _, (i_str i), es', Q. split; [reflexivity|].
        split; [constructor; cbn; eauto|]. split; [apply steps_skip|].
        split; [|auto]. unfold remaining. apply enum_pruned. cbn [children map app].
        apply pruned_drop; [|apply pruned_refl].
        intros u. cbn. unfold good. apply N.leb_gt. rewrite <- app_assoc. apply Ho.
  Qed.

  Lemma no_work : forall q v es Q, wquery q v es Q -> has_work q = false -> remaining v es Q = [].
  Proof.
    intros q v es Q [Hp He _ _] H. unfold has_work in H.
    destruct (q_edges q); [|discriminate]. destruct (q_pending q); [|discriminate].
    inversion Hp; inversion He; subst. reflexivity.
  Qed.

  Definition after (q : query R) (M : nat) (L : list str) : Prop :=
    exists v es Q, wquery q v es Q /\ filter good (remaining v es Q) = L /\ steps es Q <= M.

  Lemma loop_ok : forall fuel q v es Q, wquery q v es Q -> has_work q = true -> steps es Q < fuel ->
    exists q', advance_query_loop rt h alg x n fuel q = Ok q' /\
      match filter good (remaining v es Q) with
      | [] => q_complete q' = q_complete q /\ q_candidate q' = q_candidate q /\ after q' (steps es Q) []
      | w :: L => q_complete q' = false /\ q_candidate q' = yield w /\ after q' (steps es Q) L
      end.
  Proof.
    induction fuel as [|fuel IH]; intros q v es Q Hq HW Hf; [lia|].
    destruct (step_ok q v es Q Hq HW) as (broke & q' & v' & es' & Q' & E & Hq' & Hs & Hb).
    cbn [advance_query_loop]. rewrite E. cbn [rbind]. destruct broke.
    - destruct Hb as (w & Ew & Hc & Hd). exists q'. split; auto. rewrite Ew. split; auto. split; auto.
      exists v', es', Q'. split; auto. split; auto. lia.
    - destruct Hb as (Ew & Hc & Hd). rewrite Ew. destruct (has_work q') eqn:HW'.
      + destruct (IH q' v' es' Q' Hq' HW' ltac:(lia)) as (q2 & E2 & X). exists q2. split; auto.
        assert (mono : forall L, after q2 (steps es' Q') L -> after q2 (steps es Q) L).
        { intros L (a & b & c & A1 & A2 & A3). exists a, b, c. split; auto. split; auto. lia. }
        destruct (filter good (remaining v' es' Q')); destruct X as (X1 & X2 & X3).
        * split; [congruence|]. split; [congruence|auto].
        * auto.
      + exists q'. split; auto. pose proof (no_work _ _ _ _ Hq' HW') as E0. rewrite E0. cbn.
        split; auto. split; auto. exists v', es', Q'. split; auto. rewrite E0. split; auto. lia.
  Qed.

  Lemma advance_query_ok : forall q M L fuel, after q M L -> M < fuel ->
    exists q', advance_query rt h alg x n fuel q = Ok q' /\
      match L with
      | [] => q_complete q' = true /\ q_candidate q' = q_candidate q /\ after q' M []
      | w :: L' => q_complete q' = false /\ q_candidate q' = yield w /\ after q' M L'
      end.
  Proof.
    intros q M L fuel (v & es & Q & Hq & HL & HM) Hf. unfold advance_query.
    assert (Hq' : wquery (set_complete q) v es Q).
    { destruct Hq. constructor; auto. }
    destruct (has_work q) eqn:HW.
    - destruct (loop_ok fuel (set_complete q) v es Q Hq' HW ltac:(lia)) as (q' & E & X).
      exists q'. split; auto. rewrite HL in X.
      assert (mono : forall L, after q' (steps es Q) L -> after q' M L).
      { intros L0 (a & b & c & A1 & A2 & A3). exists a, b, c. split; auto. split; auto. lia. }
      destruct L; destruct X as (X1 & X2 & X3); auto.
    - exists (set_complete q). split; auto. rewrite (no_work _ _ _ _ Hq HW) in HL. cbn in HL. subst L.
      split; auto. split; auto. exists v, es, Q. split; auto. split; auto.
      rewrite (no_work _ _ _ _ Hq HW). auto.
  Qed.

  (** No undefined behaviour, whatever the fuel. *)
  Lemma loop_no_ub : forall fuel q v es Q, wquery q v es Q -> has_work q = true ->
    advance_query_loop rt h alg x n fuel q <> UB.
  Proof.
    induction fuel as [|fuel IH]; intros q v es Q Hq HW; cbn [advance_query_loop]; [discriminate|].
    destruct (step_ok q v es Q Hq HW) as (broke & q' & v' & es' & Q' & E & Hq' & _).
    rewrite E. cbn [rbind]. destruct broke; [discriminate|].
    destruct (has_work q') eqn:HW'; [eauto|discriminate].
  Qed.

  Lemma advance_no_ub : forall fuel q M L, after q M L ->
    advance_query rt h alg x n fuel q <> UB /\
    forall q', advance_query rt h alg x n fuel q = Ok q' -> exists L', after q' M L'.
  Proof.
    intros fuel q M L A. split.
    - destruct A as (v & es & Q & Hq & _). unfold advance_query.
      destruct (has_work q) eqn:HW; [|discriminate].
      apply loop_no_ub with (v := v) (es := es) (Q := Q); auto. destruct Hq. constructor; auto.
    - intros q' E. destruct (advance_query_ok q M L (fuel + S M) A ltac:(lia)) as (q2 & E2 & X).
      assert (Ok q' = Ok q2) as X1.
      { rewrite <- E2. symmetry. eapply advance_mono; [|exact E]. lia. }
      injection X1 as <-. destruct L; destruct X as (_ & _ & X); eauto.
  Qed.

  Lemma increments_no_ub : forall k fuel q M L, after q M L -> increments rt h alg x n fuel k q <> UB.
  Proof.
    induction k as [|k IH]; intros fuel q M L A; cbn [increments]; [discriminate|].
    destruct (advance_no_ub fuel q M L A) as [N1 N2].
    destruct (advance_query rt h alg x n fuel q) as [q'| |]; cbn [rbind]; [|tauto|discriminate].
    destruct (N2 q' eq_refl) as (L' & A'). eauto.
  Qed.

  Variables (root : ptr) (t : tree).
  Hypothesis Ht : near h B root t.
  Hypothesis Hh : height t <= S B.

  Definition matches : list str := filter good (words t).

  Lemma new_query_in : forall fuel, steps [] [([], t)] < fuel ->
    exists q, new_query rt h alg x n fuel (RootI root initial_state) = Ok q /\
      match matches with
      | [] => q_complete q = true /\ q_candidate q = r_default rt /\ after q (steps [] [([], t)]) []
      | w :: L => q_complete q = false /\ q_candidate q = yield w /\ after q (steps [] [([], t)]) L
      end.
  Proof.
    intros fuel Hf. unfold new_query. cbn [i_node].
    destruct (near_read _ _ _ _ Ht) as (nd & Rd & G & So & F & U). rewrite Rd. cbn [rbind].
    set (q0 := fun cand : R => Query [RootI root initial_state] [] false None cand 0%N 0%N).
    assert (Hq : forall cand, wquery (q0 cand) [] [] [([], t)]).
    { intros cand. constructor; cbn.
      - constructor; [constructor; cbn [i_str i_node i_state fst snd length]; rewrite ?Nat.sub_0_r; auto using represents_initial|constructor].
      - constructor.
      - tauto.
      - congruence. }
    assert (Ew : words t = (if nfin nd then [[]] else []) ++ remaining [] [] [([], t)]).
    { unfold words, remaining. destruct t as [f es]. cbn in F. subst f. rewrite enum_cons.
      cbn [children map app flat_map kids fst snd tedges]. rewrite app_nil_r. reflexivity. }
    assert (Hd : dst alg x [] = length x) by (apply dst_nil_r).
    assert (Hg : good [] = (N.of_nat (length x) <=? n)%N) by (unfold good; rewrite Hd; auto).
    assert (Adv : filter good (words t) = filter good (remaining [] [] [([], t)]) ->
      exists q, advance_query rt h alg x n fuel (q0 (r_default rt)) = Ok q /\
      match matches with
      | [] => q_complete q = true /\ q_candidate q = r_default rt /\ after q (steps [] [([], t)]) []
      | w :: L => q_complete q = false /\ q_candidate q = yield w /\ after q (steps [] [([], t)]) L
      end).
    { intros E. destruct (advance_query_ok (q0 (r_default rt)) (steps [] [([], t)]) matches fuel) as (q & E1 & X); auto.
      - exists [], [], [([], t)]. split; [apply Hq|]. split; [symmetry; exact E|lia].
      - exists q. split; auto. }
    destruct (nfin nd) eqn:Fn; cbn [andb].
    - rewrite <- Hg. destruct (good []) eqn:Gd.
      + exists (q0 (r_update rt [] (N.of_nat (length x)))). split; [reflexivity|].
        unfold matches. rewrite Ew, filter_app. cbn [filter]. rewrite Gd. cbn [app].
        split; auto. split. { unfold yield. rewrite Hd. auto. }
        exists [], [], [([], t)]. split; [apply Hq|]. split; auto.
      + apply Adv. rewrite Ew, filter_app. cbn [filter]. rewrite Gd. auto.
    - apply Adv. rewrite Ew. auto.
  Qed.

  Lemma new_query_ok : exists M, forall fuel, M < fuel ->
    exists q, new_query rt h alg x n fuel (RootI root initial_state) = Ok q /\
      match matches with
      | [] => q_complete q = true /\ q_candidate q = r_default rt /\ after q M []
      | w :: L => q_complete q = false /\ q_candidate q = yield w /\ after q M L
      end.
  Proof. exists (steps [] [([], t)]). exact new_query_in. Qed.

  Lemma increments_ok : forall k q M L fuel, after q M L -> M < fuel ->
    exists q', increments rt h alg x n fuel k q = Ok q' /\ after q' M (skipn k L) /\
      match k with
      | O => q' = q
      | S k' => match nth_error L k' with
                | Some w => q_complete q' = false /\ q_candidate q' = yield w
                | None => q_complete q' = true /\ q_candidate q' = last (map yield L) (q_candidate q)
                end
      end.
  Proof.
    induction k as [|k IH]; intros q M L fuel A Hf; cbn [increments].
    - exists q. auto.
    - destruct (advance_query_ok q M L fuel A Hf) as (q1 & E1 & X). rewrite E1. cbn [rbind].
      destruct L as [|w L].
      + destruct X as (X1 & X2 & X3). destruct (IH q1 M [] fuel X3 Hf) as (q2 & E2 & A2 & Y).
        exists q2. split; auto. split. { rewrite skipn_nil in *. auto. }
        destruct k; cbn in *.
        * subst q2. auto.
        * destruct k; cbn in Y; destruct Y as [Y1 Y2]; split; auto; congruence.
      + destruct X as (X1 & X2 & X3). destruct (IH q1 M L fuel X3 Hf) as (q2 & E2 & A2 & Y).
        exists q2. split; auto. split; auto. destruct k.
        * subst q2. cbn. auto.
        * change (nth_error (w :: L) (S k)) with (nth_error L k).
          destruct (nth_error L k); auto. destruct Y as [Y1 Y2]. split; auto.
          rewrite Y2, X2. cbn [map]. symmetry. apply last_step.
  Qed.

  Lemma query_after_ok : exists M, forall fuel k, M < fuel ->
    exists q, (do q <- new_query rt h alg x n fuel (RootI root initial_state); increments rt h alg x n fuel k q) = Ok q /\
      match nth_error matches k with
      | Some w => q_complete q = false /\ q_candidate q = yield w
      | None => q_complete q = true /\ q_candidate q = last (map yield matches) (r_default rt)
      end.
  Proof.
    destruct new_query_ok as (M & H). exists M. intros fuel k Hf.
    destruct (H fuel Hf) as (q & E & X). rewrite E. cbn [rbind].
    destruct matches as [|w L].
    - destruct X as (X1 & X2 & X3). destruct (increments_ok k q M [] fuel X3 Hf) as (q' & E' & A & Y).
      exists q'. split; auto. destruct k; cbn in *.
      + subst. auto.
      + destruct k; cbn in Y; destruct Y; split; congruence.
    - destruct X as (X1 & X2 & X3). destruct (increments_ok k q M L fuel X3 Hf) as (q' & E' & A & Y).
      exists q'. split; auto. destruct k.
      + subst. cbn. auto.
      + change (nth_error (w :: L) (S k)) with (nth_error L k). destruct (nth_error L k); auto.
        destruct Y as [Y1 Y2]. split; auto. rewrite Y2, X2. cbn [map]. symmetry. apply last_step.
  Qed.

  Lemma query_after_no_ub : forall fuel k,
    (do q <- new_query rt h alg x n fuel (RootI root initial_state); increments rt h alg x n fuel k q) <> UB.
  Proof.
    intros fuel k. destruct new_query_ok as (M & H).
    destruct (H (fuel + S M) ltac:(lia)) as (q & E & X).
    destruct (new_query rt h alg x n fuel (RootI root initial_state)) as [q'| |] eqn:E1; cbn [rbind]; [| |discriminate].
    - assert (Ok q = Ok q') as Y.
      { rewrite <- E. eapply new_query_mono; [|exact E1]. lia. }
      injection Y as <-. destruct matches; destruct X as (_ & _ & X); eapply increments_no_ub; eauto.
    - exfalso. clear E X. unfold new_query in E1. cbn [i_node] in E1.
      destruct (near_read _ _ _ _ Ht) as (nd & Rd & _). rewrite Rd in E1. cbn [rbind] in E1.
      destruct (_ && _)%bool; [discriminate|].
      eapply (advance_no_ub fuel _ (steps [] [([], t)]) (filter good (remaining [] [] [([], t)]))); [|exact E1].
      exists [], [], [([], t)]. split; [|auto]. constructor; cbn.
      + constructor; [constructor; cbn [i_str i_node i_state fst snd length]; rewrite ?Nat.sub_0_r; auto using represents_initial|constructor].
      + constructor.
      + tauto.
      + congruence.
  Qed.

  Lemma collect_ok : forall L rounds fuel q M, after q M L -> M < fuel -> S (length L) < rounds ->
    q_complete q = false -> collect rt h alg x n rounds fuel q = Ok (q_candidate q :: map yield L).
  Proof.
    induction L as [|w L IH]; intros rounds fuel q M A Hf Hr Hc; cbn [length] in Hr;
      (destruct rounds as [|rounds]; [lia|]); cbn [collect]; unfold query_eq; rewrite Hc;
      destruct (advance_query_ok q M _ fuel A Hf) as (q' & E & X1 & X2 & X3); rewrite E; cbn [rbind].
    - destruct rounds as [|rounds]; [lia|]. cbn [collect]. unfold query_eq. rewrite X1. auto.
    - rewrite (IH rounds fuel q' M X3 Hf) by (auto; lia). cbn. rewrite X2. auto.
  Qed.

  Lemma query_all_in : forall fuel, steps [] [([], t)] + length matches + 2 < fuel ->
    (do q <- new_query rt h alg x n fuel (RootI root initial_state); collect rt h alg x n fuel fuel q) = Ok (map yield matches).
  Proof.
    intros fuel Hf. destruct (new_query_in fuel ltac:(lia)) as (q & E & X). rewrite E. cbn [rbind].
    destruct matches as [|w L].
    - destruct X as (X1 & _ & _). destruct fuel; [lia|]. cbn [collect]. unfold query_eq. rewrite X1. auto.
    - destruct X as (X1 & X2 & X3). cbn [length] in Hf.
      rewrite (collect_ok L fuel fuel q _ X3) by (auto; lia). rewrite X2. auto.
  Qed.

  Lemma query_all_ok : exists M, forall fuel, M < fuel ->
    (do q <- new_query rt h alg x n fuel (RootI root initial_state); collect rt h alg x n fuel fuel q) = Ok (map yield matches).
  Proof. exists (steps [] [([], t)] + length matches + 2). exact query_all_in. Qed.
End Walk.

(** ** The tree cut off at a level *)
Definition solid (h : heap) (p : ptr) : Prop :=
  forall w q, path h p w q -> q <> null /\ exists n, hget h q = Some n /\ esorted (nedges n).

Fixpoint cut (h : heap) (k : nat) (p : ptr) : tree :=
  match hget h p with
  | None => T false []
  | Some n => T (nfin n) (match k with O => [] | S k' => map (fun e => (fst e, cut h k' (snd e))) (nedges n) end)
  end.

Lemma solid_step : forall h p n c q, solid h p -> hget h p = Some n -> In (c, q) (nedges n) -> solid h q.
Proof. intros h p n c q S G J w r P. apply (S (c :: w) r). econstructor; eauto. Qed.

Lemma cut_near : forall h k p, solid h p -> near h k p (cut h k p).
Proof.
  intros h. induction k as [|k IH]; intros p S; destruct (S [] p (path_nil h p)) as (Np & n & G & So); cbn [cut near]; rewrite G; (split; [exact Np|]); exists n;
    (split; [reflexivity|]); (split; [exact So|]); (split; [reflexivity|]); cbn [tedges]; [reflexivity|].
  assert (H : forall l, (forall e, In e l -> In e (nedges n)) -> Forall2 (fun e f => fst e = fst f /\ near h k (snd e) (snd f)) l (map (fun e => (fst e, cut h k (snd e))) l)).
  { induction l as [|[c q] l IHl]; intros Sub; cbn [map]; constructor; [|apply IHl; intros; apply Sub; now right].
    split; [reflexivity|]. cbn [fst snd]. apply IH. apply (solid_step h p n c q S G). apply Sub. now left. }
  apply H. auto.
Qed.

Lemma cut_height : forall h k p, height (cut h k p) <= S k.
Proof.
  intros h. induction k as [|k IH]; intros p; cbn [cut]; destruct (hget h p) as [n|]; cbn [height fold_right]; try lia.
  enough (fold_right (fun e m => Nat.max (height (snd e)) m) 0 (map (fun e => (fst e, cut h k (snd e))) (nedges n)) <= S k) by lia.
  induction (nedges n) as [|[c q] l IHl]; cbn [map fold_right snd fst]; [lia|]. specialize (IH q). lia.
Qed.

Lemma cut_sorted : forall h k p, solid h p -> tsorted (cut h k p).
Proof.
  intros h. induction k as [|k IH]; intros p S; destruct (S [] p (path_nil h p)) as (Np & n & G & So); cbn [cut]; rewrite G; constructor; try (constructor; fail).
  - clear -So. unfold esorted in *. induction So as [|[c q] l So IHl F]; cbn [map]; constructor; [exact IHl|]. rewrite Forall_map. eapply Forall_impl; [|exact F].
    intros [d r] X. exact X.
  - apply Forall_map, Forall_forall. intros [c q] J. cbn [fst snd]. apply IH. exact (solid_step h p n c q S G J).
Qed.

Lemma cut_get : forall h k (l : list (char * ptr)) c, edge_get (map (fun e => (fst e, cut h k (snd e))) l) c = match edge_get l c with Some q => Some (cut h k q) | None => None end.
Proof.
  intros h k l c. induction l as [|[d q] l IH]; cbn [map fst snd edge_get]; [reflexivity|]. destruct (ceqb c d); [reflexivity|exact IH].
Qed.

Lemma cut_tin : forall h w k p, solid h p -> length w <= k -> (tin (cut h k p) w = true <-> accepts_from h p w).
Proof.
  intros h. induction w as [|c w IH]; intros k p S L; destruct (S [] p (path_nil h p)) as (Np & n & G & So).
  - assert (E : tin (cut h k p) [] = nfin n) by (destruct k; cbn [cut]; rewrite G; reflexivity). rewrite E. split.
    + intros F. exists p, n. split; [constructor|auto].
    + intros (q & m & P & Gq & F). inversion P; subst. congruence.
  - cbn [length] in L. destruct k as [|k]; [lia|]. cbn [cut]. rewrite G. cbn [tin tedges]. rewrite cut_get. destruct (edge_get (nedges n) c) as [q|] eqn:E.
    + pose proof (edge_get_In _ _ _ _ E) as J. rewrite (IH k q (solid_step h p n c q S G J)) by lia. split; intros (r & m & P & X); exists r, m; (split; [|exact X]).
      * econstructor; eauto.
      * inversion P as [|? n' ? q' ? ? G' J' P']; subst. assert (n' = n) by congruence. subst n'. apply edge_In_get in J'; auto. congruence.
    + split; [discriminate|]. intros (r & m & P & _). inversion P as [|? n' ? q' ? ? G' J' P']; subst. assert (n' = n) by congruence. subst n'. apply edge_In_get in J'; auto. congruence.
Qed.

Lemma StronglySorted_filter : forall (f : str -> bool) l, StronglySorted shortlex_lt l -> StronglySorted shortlex_lt (filter f l).
Proof.
  intros f l S. induction S as [|w l S IH F]; cbn [filter]; [constructor|]. destruct (f w); [|exact IH]. constructor; [exact IH|].
  rewrite Forall_forall in *. intros v J. apply F. apply filter_In in J. apply J.
Qed.

(** ** The answers *)
Section Answers.
  Context {R : Type} (rt : result_type R).
  Variables (h : heap) (alg : algorithm) (x : str) (n : N) (root : ptr).
  Hypothesis So : solid h root.
  Hypothesis Hx : manageable x n.
  Hypothesis Hn : (n <= SIZE_MAX)%N.
  Hypothesis Hs : (N.of_nat (length x) + n + 1 < 2 ^ 62)%N.

  Let B := length x + N.to_nat n + 1.

  Lemma round_query : exists answers, lists alg x n (accepts_from h root) answers /\ sorted_by shortlex_lt (map fst answers) /\
    yields rt alg h (Dawg root 0) x n (map (fun a => r_update rt (fst a) (snd a)) answers) /\
    (forall fuel k, query_after rt fuel h (new_transducer alg root) x n k <> UB) /\
    (exists enough, forall fuel k, enough <= fuel -> exists q, query_after rt fuel h (new_transducer alg root) x n k = Ok q /\ shows rt answers k q).
  Proof.
    assert (HB : small_depth B) by (unfold small_depth, B in *; change (2 ^ 62)%N with 4611686018427387904%N in *; lia).
    assert (HxB : length x + N.to_nat n < B) by (unfold B; lia).
    set (t := cut h B root). pose proof (cut_near h B root So) as Ne. pose proof (cut_height h B root) as Hh. pose proof (cut_sorted h B root So) as Ts. fold t in Ne, Hh, Ts.
    exists (graded alg x n t). split; [|split; [|split; [|split]]].
    - destruct (graded_lists alg x n t (fun w => tin t w = true) Ts ltac:(reflexivity)) as (ND & I). split; [exact ND|]. intros w d. rewrite I.
      split; intros (P & E & L); (split; [|auto]); apply edit_distance_dst in E; pose proof (dst_len alg x w); apply (cut_tin h w B root So); try exact P; unfold B; lia.
    - unfold graded, QueryProofs.matches. rewrite map_map. cbn [fst]. rewrite map_id. apply StronglySorted_sorted_by. apply StronglySorted_filter. now apply words_sorted.
    - destruct (query_all_ok rt h alg x n B Hx Hn HB HxB root t Ne Hh) as (M & Q). exists (S M). intros fuel Hf.
      unfold query_all, begin_query. cbn [new_transducer tr_alg tr_root d_root]. rewrite Q by lia. unfold graded. rewrite map_map. reflexivity.
    - intros fuel k. unfold query_after, begin_query. cbn [new_transducer tr_alg tr_root]. now apply (query_after_no_ub rt h alg x n B Hx Hn HB HxB root t Ne Hh).
    - destruct (query_after_ok rt h alg x n B Hx Hn HB HxB root t Ne Hh) as (M & Q). exists (S M). intros fuel k Hf. destruct (Q fuel k ltac:(lia)) as (q & E & X). exists q.
      unfold query_after, begin_query. cbn [new_transducer tr_alg tr_root]. split; [exact E|]. unfold shows, graded. rewrite nth_error_map. unfold matches in X. unfold QueryProofs.matches.
      destruct (nth_error _ k); exact (proj1 X) || exact X.
  Qed.
End Answers.

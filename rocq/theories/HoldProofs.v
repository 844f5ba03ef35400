(** * HoldProofs: how many objects a query holds. *)
From Coq Require Import Sorting.Sorted Sorting.Permutation.
From Verif Require Import Base Spec SpecTransducer ModelTransducer ModelDawg ModelQuery ModelState ModelMemory SpecDawg SpecState SpecMemory
  SpecBounds SpecQuery AlignProofs TransProofs StateProofs ReadProofs TreeProofs HeapProofs IterProofs QueryProofs BoundProofs
  PointerProofs MemoryProofs ThrowProofs.
Local Open Scope nat_scope.
Set Implicit Arguments. Unset Strict Implicit.

Section Hold.
  Context {R : Type} (rt : result_type R).
  Variables (h : heap) (alg : algorithm) (x : str) (n : N) (B S : nat).
  Hypothesis Hx : manageable x n.
  Hypothesis Hn : (n <= SIZE_MAX)%N.
  Hypothesis HB : small_depth B.
  Hypothesis HS : most alg (N.to_nat n) <= S.
  Let rq := @QueryProofs.rquery R h alg x n B.
  Let live := alive alg x n.

  Lemma lazy_owned fuel al order w (it : lazy_query R) b w' it' : lazy_step rt fuel al order h alg x n w it = Ok (b, w', it') ->
    match l_edges it with
    | [] => l_intersections it' = l_intersections it
    | _ => length (l_intersections it') + length (l_pending it) = length (l_intersections it) + length (l_pending it')
    end.
  Proof.
    unfold lazy_step. intros E. destruct (l_edges it) as [|[label next] edges].
    - destruct (l_pending it) as [|p rest]; [discriminate|].
      destruct (mread (w_int w) p); try discriminate; cbn [rbind] in E.
      destruct (mread (w_st w) _); try discriminate; cbn [rbind] in E.
      destruct (get_pos _ _); try discriminate; cbn [rbind] in E.
      destruct (ModelDawg.read h _); try discriminate; cbn [rbind] in E.
      injection E as <- <- <-. reflexivity.
    - destruct (mread (w_int w) _); try discriminate; cbn [rbind] in E.
      destruct (characteristic_vector _ _ _ _); try discriminate; cbn [rbind] in E.
      destruct (state_transition_pointers _ _ _ _ _ _ _ _ _ _ _) as [[[m1 ss1] s]| |]; try discriminate; cbn [rbind] in E.
      destruct (negb (s =? null)%N).
      + destruct (new_intersection _ _ _) as [y w2]. destruct (ModelDawg.read h next) as [nd| |]; try discriminate; cbn [rbind] in E.
        assert (X : l_intersections it' = l_intersections it ++ [y] /\ l_pending it' = l_pending it ++ [y]).
        { destruct (nfin nd); [|injection E as <- <- <-; auto].
          destruct (mread (w_st w2) s); try discriminate; cbn [rbind] in E.
          destruct (distance_pointers _ _ _ _ _) as [d| |]; try discriminate; cbn [rbind] in E.
          destruct (d <=? n)%N; [|injection E as <- <- <-; auto].
          destruct (intersection_str _ _ _); try discriminate; cbn [rbind] in E. injection E as <- <- <-; auto. }
        destruct X as [-> ->]. rewrite !app_length. cbn. lia.
      + injection E as <- <- <-. cbn. lia.
  Qed.

  Lemma pushed q v es Q b q' : rq q v es Q -> advance_step rt h alg x n q = Ok (b, q') ->
    match q_edges q with
    | [] => tried q = []
    | _ => length (q_pending q') = length (q_pending q) + length (filter live (tried q))
    end.
  Proof.
    intros [Hp He Hl Hc] E. unfold advance_step, tried in *. destruct (q_edges q) as [|[c p] edges] eqn:Eq; auto.
    destruct (Hc ltac:(discriminate)) as (i & hd & tl & C1 & C2 & C3 & C4 & C5 & C6).
    inversion He as [|? ? t ? es' Ut Ue]; subst.
    rewrite C1 in *. cbn [deref rbind] in E. rewrite C5, C6, C3 in E.
    pose proof (Hl c t (or_introl eq_refl)) as Lt. pose proof (height_pos t) as Hp1.
    assert (SB : forall a, a <= B -> small_depth a) by (unfold small_depth in *; lia).
    destruct (represents_step alg x n (i_str i) c hd tl Hx Hn ltac:(apply SB; lia) C4) as (cv & Ecv & o & Eo & Ho).
    rewrite Ecv in E. cbn [rbind] in E. rewrite Eo in E. cbn [rbind] in E.
    assert (Sd : small_depth (length (i_str i ++ [c]))).
    { apply SB. rewrite app_length. cbn. lia. }
    cbn [filter]. destruct o as [st|].
    - assert (A : live (i_str i ++ [c]) = true).
      { apply alive_spec; auto. eapply represents_lives; eauto. }
      rewrite A. destruct (ModelDawg.read h p) as [nd| |]; try discriminate. cbn [rbind] in E. cbn [length].
      assert (X : q_pending q' = q_pending q ++ [ChildI c p st i]).
      { destruct (nfin nd); [destruct (_ <=? n)%N|]; injection E as <- <-; auto. }
      rewrite X, app_length. reflexivity.
    - assert (A : live (i_str i ++ [c]) = false).
      { destruct (live (i_str i ++ [c])) eqn:A; auto. apply alive_spec in A; auto.
        destruct A as (u & L). rewrite <- app_assoc in L. specialize (Ho u). cbn [app] in L. lia. }
      rewrite A. injection E as <- <-. cbn. lia.
  Qed.

  Lemma related_pending root os (it : lazy_query R) q : related root os it q -> length (l_pending it) = length (q_pending q).
  Proof. intros Hr. pose proof (rel_pending Hr) as F. induction F; cbn; auto. Qed.

  Variables (al : allocators) (order : positions -> ptr -> bool) (fuel : nat) (base : world) (root : own) (rest : list own).
  Hypothesis HA : sound_allocators al.
  Hypothesis Hf : 6 * S + B + 10 <= fuel.
  Hypothesis Hr : readable base root.

  (** The query [q] is in memory as [it], which owns [count] intersections. *)
  Definition held (w : world) (it : lazy_query R) (q : query R) (count : nat) : Prop :=
    small S B q /\ (exists v es Q, rq q v es Q) /\
    exists os, owns w base (os ++ rest) /\ related root os it q /\ bounded S os /\ length os = count.

  Lemma held_step w it q count b q' : held w it q count -> has_work q = true -> advance_step rt h alg x n q = Ok (b, q') ->
    exists w' it', lazy_step rt fuel al order h alg x n w it = Ok (b, w', it') /\
      held w' it' q' (count + length (filter live (tried q))).
  Proof.
    intros (Sm & (v & es & Q & Hq) & os & Ho & Rel & Bd & <-) HW E.
    destruct (@step_log R rt h alg x n B Hx Hn HB q v es Q Hq HW) as (b0 & q0 & v' & es' & Q' & E0 & Hq' & _).
    rewrite E in E0. injection E0 as <- <-.
    pose proof (small_step Hn HS Sm E Hq') as Sm'.
    destruct (MemoryProofs.step_ok E) as (N & K & NK & St).
    destruct (NK S B) as [LN LK].
    { intros i Hi. apply Sm. now right. }
    { intros i Hi. apply Sm'. now left. }
    destruct (St al order fuel w base root os rest it S HA ltac:(lia) Ho Hr Rel Bd) as (w' & it' & os' & El & Ho' & Rel' & Bd').
    exists w', it'. split; [exact El|]. split; [exact Sm'|]. split; [eauto|]. exists os'. split; [exact Ho'|]. split; [exact Rel'|].
    split; [now rewrite Nat.max_l in Bd' by lia|].
    pose proof (lazy_owned El) as Lo. pose proof (pushed Hq E) as Pu. rewrite (rel_edges Rel) in Lo.
    rewrite (rel_owned Rel), (rel_owned Rel') in Lo.
    destruct (q_edges q) as [|e edges].
    - rewrite Pu. cbn. apply (f_equal (@length _)) in Lo. rewrite !map_length in Lo. lia.
    - rewrite !map_length, (related_pending Rel), (related_pending Rel') in Lo. lia.
  Qed.

  Lemma held_loop f : forall w it q count log q' rounds, held w it q count -> has_work q = true ->
    log_loop rt h alg x n f q = Ok (log, q') -> f <= rounds ->
    exists w' it', lazy_loop rt fuel al order h alg x n rounds w it = Ok (w', it') /\
      held w' it' q' (count + length (filter live log)).
  Proof.
    induction f as [|f IH]; intros w it q count log q' rounds Hh HW E Hl; [discriminate|]. cbn [log_loop] in E.
    destruct (advance_step rt h alg x n q) as [[b q1]| |] eqn:E1; try discriminate. cbn [rbind] in E.
    destruct rounds as [|rounds]; [lia|]. cbn [lazy_loop].
    destruct (held_step Hh HW E1) as (w1 & it1 & El & Hh1). rewrite El. cbn [rbind].
    assert (Wk : lazy_work it1 = has_work q1).
    { destruct Hh1 as (_ & _ & os & _ & Rel & _). exact (work_ok Rel). }
    rewrite Wk. destruct b.
    - injection E as <- <-. eauto.
    - destruct (has_work q1) eqn:HW1.
      + destruct (log_loop rt h alg x n f q1) as [[log1 q2]| |] eqn:E2; try discriminate. cbn [rbind] in E. injection E as <- <-.
        destruct (IH w1 it1 q1 _ log1 q2 rounds Hh1 HW1 E2 ltac:(lia)) as (w2 & it2 & E3 & Hh2).
        exists w2, it2. split; [exact E3|]. rewrite filter_app, app_length, Nat.add_assoc. exact Hh2.
      + injection E as <- <-. eauto.
  Qed.

  Lemma held_complete w it q count : held w it q count -> held w (lazy_complete it) (set_complete q) count.
  Proof.
    intros (Sm & (v & es & Q & Hq) & os & Ho & Rel & Bd & <-). split; [exact Sm|]. split.
    - exists v, es, Q. destruct Hq. constructor; auto.
    - exists os. split; [exact Ho|]. split; [now apply complete_related|]. auto.
  Qed.

  Lemma held_advance f w it q count log q' : held w it q count -> log_advance rt h alg x n f q = Ok (log, q') -> f <= fuel ->
    exists w' it', lazy_advance rt fuel al order h alg x n w it = Ok (w', it') /\
      held w' it' q' (count + length (filter live log)).
  Proof.
    intros Hh E Hl. unfold lazy_advance, log_advance in *.
    assert (Wk : lazy_work it = has_work q).
    { destruct Hh as (_ & _ & os & _ & Rel & _). exact (work_ok Rel). }
    rewrite Wk. destruct (has_work q) eqn:HW.
    - eapply held_loop; eauto using held_complete.
    - injection E as <- <-. exists w, (lazy_complete it). split; auto. cbn. rewrite Nat.add_0_r. now apply held_complete.
  Qed.

  Variables (r0 : ptr) (t : tree).
  Hypothesis Ht : unf h r0 t.
  Hypothesis Hh0 : height t <= Datatypes.S B.
  Hypothesis D : denotes [root] (o_ptr root) (RootI r0 initial_state).

  Lemma held_begin f w log q' : owns w base rest -> log_new rt h alg x n f (RootI r0 initial_state) = Ok (log, q') -> f <= fuel ->
    exists w' it', lazy_begin rt fuel al order h alg x n w (o_ptr root) = Ok (w', it') /\
      held w' it' q' (length (filter live log)).
  Proof.
    intros Ho E Hl. unfold lazy_begin, log_new in *. cbn [i_node] in E.
    destruct (denotes_own D) as (o & [<-|[]] & _ & K3 & K4). cbn [i_node i_state] in K3, K4.
    destruct (readable_owns Ho Hr) as (G1 & G2 & _). rewrite (mread_ok G1 G2). cbn [rbind]. rewrite K3.
    destruct (ModelDawg.read h r0) as [nd| |]; try discriminate. cbn [rbind] in *.
    assert (H0 : forall cand : R, held w (LazyQuery [o_ptr root] [] [] false null cand 0%N 0%N)
                     (Query [RootI r0 initial_state] [] false None cand 0%N 0%N) 0).
    { intros cand. split; [|split].
      - intros i [[<-|[]]|Hi]; [|discriminate]. cbn. unfold most in HS. destruct alg; lia.
      - exists [], [], [([], t)]. constructor; cbn.
        + constructor; [constructor; cbn; auto using represents_initial|constructor].
        + constructor.
        + tauto.
        + congruence.
      - exists []. split; [exact Ho|]. split; [constructor; cbn; auto|]. split; [intros ? []|reflexivity]. }
    destruct (nfin nd && _).
    - injection E as <- <-. eexists _, _. split; [reflexivity|]. apply H0.
    - destruct (held_advance (H0 _) E Hl) as (w' & it' & El & Hh'). exists w', it'. split; [exact El|exact Hh'].
  Qed.
End Hold.

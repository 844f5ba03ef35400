(** * AllocProofs: how many allocations a query makes (C97). *)
From Coq Require Import Sorting.Sorted Sorting.Permutation.
From Verif Require Import Base Spec SpecTransducer ModelTransducer ModelDawg ModelQuery ModelState ModelMemory ModelShared ModelThrow SpecDawg SpecState
  SpecMemory SpecBounds SpecQuery SpecThrow AlignProofs TransProofs StateProofs ReadProofs TreeProofs HeapProofs IterProofs QueryProofs BoundProofs
  PointerProofs MemoryProofs AloneProofs ThrowProofs HoldProofs.
Local Open Scope nat_scope.
Set Implicit Arguments. Unset Strict Implicit.

Section Cost.
  Variables (al : allocators) (order : positions -> ptr -> bool) (h : heap).
  Notation run_alone := (alone al order h).

  (** How many objects a program that runs alone allocates. *)
  Fixpoint cost {A : Type} (p : program A) (w : world) : nat :=
    match p with
    | Return _ | Undefined | NoFuel => 0
    | Read c a k => match mread (part w c) a with Ok x => cost (k x) w | _ => 0 end
    | Write c a x k => match mwrite (part w c) a x with Ok m => cost k (with_part w c m) | _ => 0 end
    | New c x k => let a := alloc al c (part w c) in S (cost (k a) (with_part w c (mset (part w c) a x)))
    | Free c a k => match mfree (part w c) a with Ok m => cost k (with_part w c m) | _ => 0 end
    | ReadNode a k => match ModelDawg.read h a with Ok n => cost (k n) w | _ => 0 end
    | Choose a x b k =>
        match mwrite (w_pos w) a x with Ok m => cost (k (order m b)) (World m (w_st w) (w_int w)) | _ => 0 end
    end.

  Lemma attempt_cost {A} (p : program A) : forall w w' x k, run_alone p w = Ok (w', x) -> cost p w <= k ->
    attempt al order h p (Some k) w = Ok (Some (k - cost p w), w', Some x).
  Proof.
    induction p as [y| | |c a f IH|c a y f IH|c y f IH|c a f IH|a f IH|a y d f IH]; intros w w' x k H Hk;
      cbn [alone attempt cost] in *; try discriminate.
    - injection H as <- <-. now rewrite Nat.sub_0_r.
    - destruct (mread (part w c) a); cbn [rbind] in *; try discriminate. now apply IH.
    - destruct (mwrite (part w c) a y); cbn [rbind] in *; try discriminate. now apply IH.
    - destruct k as [|k]; [lia|]. cbn [spend]. apply IH; auto. lia.
    - destruct (mfree (part w c) a); cbn [rbind] in *; try discriminate. now apply IH.
    - destruct (ModelDawg.read h a); cbn [rbind] in *; try discriminate. now apply IH.
    - destruct (mwrite (w_pos w) a y); cbn [rbind] in *; try discriminate. now apply IH.
  Qed.

  Lemma cost_bind {A B} (p : program A) (f : A -> program B) : forall w,
    cost (bind p f) w = cost p w + match run_alone p w with Ok (w', x) => cost (f x) w' | _ => 0 end.
  Proof.
    induction p as [y| | |c a g IH|c a y g IH|c y g IH|c a g IH|a g IH|a y d g IH]; intros w; cbn [bind alone cost]; auto.
    - destruct (mread (part w c) a); cbn [rbind]; auto.
    - destruct (mwrite (part w c) a y); cbn [rbind]; auto.
    - rewrite IH. reflexivity.
    - destruct (mfree (part w c) a); cbn [rbind]; auto.
    - destruct (ModelDawg.read h a); cbn [rbind]; auto.
    - destruct (mwrite (w_pos w) a y); cbn [rbind]; auto.
  Qed.

  (** A program that allocates nothing. *)
  Definition quiet {A} (p : program A) : Prop := forall w, cost p w = 0.

  Lemma quiet_bind {A B} (p : program A) (f : A -> program B) : quiet p -> (forall x, quiet (f x)) -> quiet (bind p f).
  Proof.
    intros H1 H2 w. rewrite cost_bind, H1. destruct (run_alone p w) as [[w' x]| |]; auto. apply H2.
  Qed.
  Lemma quiet_return {A} (x : A) : quiet (Return x).
  Proof. intros w. reflexivity. Qed.
  Lemma quiet_undefined {A} : quiet (@Undefined A).
  Proof. intros w. reflexivity. Qed.
  Lemma quiet_nofuel {A} : quiet (@NoFuel A).
  Proof. intros w. reflexivity. Qed.
  Lemma quiet_read {A} c p (k : object c -> program A) : (forall x, quiet (k x)) -> quiet (Read c p k).
  Proof. intros H w. cbn [cost]. destruct (mread (part w c) p); auto. apply H. Qed.
  Lemma quiet_write {A} c p x (k : program A) : quiet k -> quiet (Write c p x k).
  Proof. intros H w. cbn [cost]. destruct (mwrite (part w c) p x); auto. Qed.
  Lemma quiet_free {A} c p (k : program A) : quiet k -> quiet (Free c p k).
  Proof. intros H w. cbn [cost]. destruct (mfree (part w c) p); auto. Qed.
  Lemma quiet_choose {A} p x a (k : bool -> program A) : (forall o, quiet (k o)) -> quiet (Choose p x a k).
  Proof. intros H w. cbn [cost]. destruct (mwrite (w_pos w) p x); auto. apply H. Qed.
  Lemma quiet_lift {A} (r : res A) : quiet (lift r).
  Proof. destruct r; intros w; reflexivity. Qed.

  Ltac hush := repeat first
    [ assumption | apply quiet_return | apply quiet_undefined | apply quiet_nofuel | apply quiet_lift
    | match goal with
      | |- quiet (bind _ _) => apply quiet_bind
      | |- quiet (Read _ _ _) => apply quiet_read
      | |- quiet (Write _ _ _ _) => apply quiet_write
      | |- quiet (Free _ _ _) => apply quiet_free
      | |- quiet (Choose _ _ _ _) => apply quiet_choose
      | |- quiet (if ?b then _ else _) => destruct b
      | |- quiet (match ?b with _ => _ end) => destruct b
      | |- quiet (let (_, _) := ?b in _) => destruct b
      | |- forall _, _ => intros ?
      | H : _ |- _ => solve [apply H]
      end
    | progress unfold p_get_next, p_set_next, p_get_pos, p_state_head, p_link, p_cut, p_new_iterator, p_iterator_next,
        p_insert_after, p_state_insert_after, p_state_add, p_state_remove, p_iterator_remove ].

  Lemma quiet_new_iterator p : quiet (p_new_iterator p).
  Proof. hush. Qed.
  Lemma quiet_iterator_next i : quiet (p_iterator_next i).
  Proof. hush. Qed.
  Lemma quiet_delete fuel : forall p, quiet (p_delete_position fuel p).
  Proof. induction fuel as [|fuel IH]; intros p; cbn [p_delete_position]; hush. Qed.
  Lemma quiet_last fuel : forall p, quiet (p_last_position fuel p).
  Proof. induction fuel as [|fuel IH]; intros p; cbn [p_last_position]; hush. Qed.
  Lemma quiet_middle fuel : forall p q, quiet (p_find_middle fuel p q).
  Proof. induction fuel as [|fuel IH]; intros p q; cbn [p_find_middle]; hush. Qed.
  Lemma quiet_merge_pointers cmp fuel : forall a b p q, quiet (p_merge_pointers fuel cmp a b p q).
  Proof. induction fuel as [|fuel IH]; intros a b p q; cbn [p_merge_pointers]; hush. Qed.
  Lemma quiet_sort cmp fuel : forall p, quiet (p_sort_pointers fuel cmp p).
  Proof.
    induction fuel as [|fuel IH]; intros p; cbn [p_sort_pointers]; [hush|].
    pose proof (quiet_middle (S fuel)) as H1. pose proof (quiet_merge_pointers cmp (S fuel)) as H2.
    cbn [p_find_middle p_merge_pointers] in H1, H2. hush.
  Qed.
  Lemma quiet_merge_walk alg a e fuel : forall i p, quiet (p_merge_walk fuel alg a i e p).
  Proof. induction fuel as [|fuel IH]; intros i p; cbn [p_merge_walk]; hush. Qed.
  Lemma quiet_insert fuel a b c : quiet (p_insert_after fuel a b c).
  Proof. pose proof (quiet_last fuel). hush. Qed.
  Lemma quiet_merge_position fuel alg a b : quiet (p_merge_position fuel alg a b).
  Proof.
    unfold p_merge_position. pose proof (quiet_insert fuel). pose proof (quiet_merge_walk alg). pose proof (quiet_delete fuel).
    repeat first [apply H | apply quiet_bind; intros | progress hush].
  Qed.
  Lemma quiet_merge_all fuel alg : forall ps a, quiet (p_merge_all fuel alg a ps).
  Proof.
    induction ps as [|p ps IH]; intros a; cbn [p_merge_all]; [hush|]. apply quiet_bind; [apply quiet_merge_position|intros x; apply IH].
  Qed.
  Lemma quiet_skip e n fuel : forall i, quiet (p_skip_walk fuel n i e).
  Proof. induction fuel as [|fuel IH]; intros i; cbn [p_skip_walk]; hush. Qed.
  Lemma quiet_iterator_remove fuel a i o : quiet (p_iterator_remove fuel a i o).
  Proof. pose proof (quiet_delete fuel). hush. Qed.
  Lemma quiet_remove_walk alg n a e fuel : forall b i j, quiet (p_remove_walk fuel alg n b a i j e).
  Proof.
    induction fuel as [|fuel IH]; intros b i j; cbn [p_remove_walk]; [hush|].
    pose proof (quiet_iterator_remove (S fuel)). cbn [p_iterator_remove] in H.
    destruct (negb _); [|hush]. apply quiet_bind; [hush|intros x]. apply quiet_bind; [hush|intros y].
    destruct (subsumes alg x y n).
    - apply quiet_bind; [apply H|intros [[h1 i1] o1]]. apply quiet_bind; [hush|intros z]. apply quiet_bind; [hush|intros z1]. apply IH.
    - apply quiet_bind; [hush|intros z]. apply IH.
  Qed.
  Lemma quiet_unsubsume_walk alg n e fuel : forall a i, quiet (p_unsubsume_walk fuel alg n a i e).
  Proof.
    induction fuel as [|fuel IH]; intros a i; cbn [p_unsubsume_walk]; [hush|].
    destruct (negb _); [|hush]. apply quiet_bind; [hush|intros x]. apply quiet_bind; [hush|intros y]. apply quiet_bind; [hush|intros z].
    apply quiet_bind; [exact (quiet_skip e (ne x) (S fuel) z)|intros u].
    apply quiet_bind; [exact (quiet_remove_walk alg n (si_curr i) e (S fuel) a i u)|intros [h1 o1]].
    apply quiet_bind; [hush|intros o2]. apply IH.
  Qed.

  Lemma cost_new_positions xs : forall w, cost (p_new_positions xs) w = length xs.
  Proof.
    induction xs as [|x xs IH]; intros w; cbn [p_new_positions length]; [reflexivity|].
    cbn [p_new_position bind cost]. rewrite cost_bind, IH. destruct (run_alone _ _) as [[w' ps]| |]; cbn; lia.
  Qed.

  Hypothesis HA : sound_allocators al.

  Lemma cost_walk alg n cv offset base ch cs ss is fuel : forall l2 l1 m hd l iter st,
    segment base ch (l1 ++ l2) null ->
    consists_of m base ((hd, l, null) :: cs) -> stands iter l1 l2 ->
    merge_transitions alg n cv offset (map snd l2) (map snd l) = Ok st ->
    length l + 5 * length l2 + 1 < fuel ->
    cost (p_transition_walk fuel alg n cv offset hd iter the_end) (World m ss is) <= 4 * length l2.
  Proof.
    pose proof HA as (HA1 & _ & _).
    induction fuel as [|fuel IH]; intros l2 l1 m hd l iter st HB H St HT Hf; [lia|].
    cbn [p_transition_walk].
    pose proof (base_segment H HB) as Sg.
    rewrite (stands_eq Sg St). destruct l2 as [|[a x] l2]; cbn [negb]; [cbn; lia|].
    assert (Hc : si_curr iter = a) by (rewrite St; reflexivity). rewrite Hc.
    cbn [map snd merge_transitions] in HT.
    destruct (position_transition alg n x cv offset) as [xs| |] eqn:Ex; cbn [rbind] in HT; try discriminate.
    pose proof (transition_length Ex) as Hx.
    destruct (new_positions_ok xs HA1 H) as (m1 & ps & E1 & M1 & H1).
    assert (C1 : cost (p_transition_pointers alg n a cv offset) (World m ss is) <= 4).
    { unfold p_transition_pointers. rewrite cost_bind. unfold p_get_pos at 1. cbn [cost part].
      assert (E : run_alone (p_get_pos a) (World m ss is) = Ok (World m ss is, x)).
      { rewrite get_pos_alone. rewrite (segment_pos Sg). reflexivity. }
      rewrite E. rewrite Ex. cbn [lift bind]. rewrite cost_new_positions. cbn [w_pos].
      destruct (mread _ _); cbn [cost]; lia. }
    rewrite cost_bind, transition_pointers_alone.
    unfold transition_pointers at 1. rewrite (segment_pos Sg). cbn [rbind]. rewrite Ex. cbn [rbind]. rewrite E1. cbn [rbind].
    assert (H1' : consists_of m1 base ((hd, l, null) :: map loose ps ++ cs)).
    { apply (world_perm (Permutation_sym (Permutation_middle _ _ _))). exact H1. }
    assert (Hps : length ps = length xs) by (now rewrite <- M1, map_length).
    cbn [length] in Hf.
    destruct (@merge_all_ok alg base ps m1 hd l cs (S fuel) H1') as (m2 & h2 & l' & E2 & H2 & M2 & I2); [lia|].
    rewrite cost_bind, (quiet_merge_all (S fuel) alg (map fst ps) hd). rewrite merge_all_alone, E2. cbn [rbind].
    assert (Hl' : length l' <= length l + 4).
    { rewrite <- (map_length snd l'), M2. clear - Hps Hx.
      assert (G : forall ys s, (length (merge alg s ys) <= length s + length ys)%nat).
      { induction ys as [|y ys IH]; intros s; [cbn; lia|].
        change (merge alg s (y :: ys)) with (merge alg (merge_one alg s y) ys).
        specialize (IH (merge_one alg s y)). pose proof (merge_one_length alg s y). cbn. lia. }
      specialize (G (map snd ps) (map snd l)). rewrite !map_length in G. lia. }
    pose proof (base_segment H2 HB) as Sg2.
    destruct (stands_next Sg2 St) as (it' & E3 & St3).
    rewrite cost_bind, iterator_next_alone, E3. cbn [rbind].
    assert (C3 : cost (p_iterator_next iter) (World m2 ss is) = 0) by (apply (quiet_iterator_next iter)).
    rewrite C3. rewrite M1 in M2. rewrite <- M2 in HT.
    change ((a, x) :: l2) with ([(a, x)] ++ l2) in HB. rewrite app_assoc in HB.
    pose proof (IH l2 (l1 ++ [(a, x)]) m2 h2 l' it' st HB H2 St3 HT ltac:(lia)) as C4.
    cbn [length]. lia.
  Qed.

  Lemma cost_transition alg n len base ss is curr ch cl cv r fuel :
    curr <> null -> mget ss curr = Some ch -> segment base ch cl null ->
    state_transition alg n len (map snd cl) cv = Ok r -> 5 * length cl + 2 < fuel ->
    cost (p_state_transition fuel alg n len curr cv) (World base ss is) <= 4 * length cl + 1.
  Proof.
    intros Hc Hch Sg HT Hf. pose proof HA as (HA1 & HA2 & _). unfold p_state_transition.
    assert (Er : mread (part (World base ss is) OfState) curr = Ok ch) by exact (mread_ok Hc Hch).
    rewrite cost_bind, alone_read. cbn [cost]. rewrite Er. cbn [rbind].
    destruct cl as [|[a x] cl0] eqn:Ecl; [discriminate HT|]. rewrite <- Ecl in *.
    assert (Ep : get_pos base ch = Ok x).
    { pose proof Sg as Sg0. rewrite Ecl in Sg0. pose proof (segment_start Sg0) as E0. cbn in E0.
      rewrite E0. rewrite E0 in Sg0. exact (segment_pos (l1:=[]) Sg0). }
    rewrite cost_bind, get_pos_alone, Ep. cbn [rbind].
    assert (C0 : quiet (p_get_pos ch)) by (apply quiet_read; intros; apply quiet_return).
    rewrite C0. rewrite cost_bind. cbn [cost alone alloc part w_st with_part w_pos w_int].
    set (s := a_st al ss). set (ss1 := mset ss s null).
    destruct (stands_begin Sg) as (it & Eit & St). unfold state_begin in Eit.
    rewrite cost_bind, (quiet_new_iterator ch), new_iterator_alone, Eit. cbn [rbind].
    rewrite cost_bind, (quiet_new_iterator null), new_iterator_alone. rewrite (state_end_eq base : new_iterator base null = Ok the_end). cbn [rbind].
    assert (H0 : consists_of base base [(null, [], null)]).
    { split; [|split; [constructor|split; [intros ? []|split; reflexivity]]].
      intros p l q [E|[]]. inversion E; subst. reflexivity. }
    rewrite Ecl in HT at 1. cbn [map snd state_transition] in HT.
    replace (x :: map snd cl0) with (map snd cl) in HT by (rewrite Ecl; reflexivity).
    destruct (merge_transitions alg n cv (ti x) (map snd cl) []) as [next| |] eqn:En;
      cbn [rbind] in HT; try discriminate.
    pose proof (@cost_walk alg n cv (ti x) base ch [] ss1 is fuel cl [] base null [] it next Sg H0 St En ltac:(cbn; lia)) as C1.
    rewrite cost_bind.
    match goal with |- context [cost (p_transition_walk _ _ _ _ _ _ _ _) ?w] => change w with (World base ss1 is) end.
    destruct (run_alone (p_transition_walk _ _ _ _ _ _ _ _) _) as [[w' head1]| |]; [|lia..].
    assert (Q : quiet (let! head2 := p_unsubsume_pointers fuel alg len head1 in
      if negb (head2 =? null)%N then
        let! head3 := p_sort_pointers fuel (compare alg) head2 in Write OfState s head3 (Return s)
      else let! _ := p_delete_position fuel head2 in Free OfState s (Return null))).
    { apply quiet_bind.
      - unfold p_unsubsume_pointers. apply quiet_bind; [apply quiet_new_iterator|intros i]. apply quiet_bind; [apply quiet_new_iterator|intros e].
        apply quiet_unsubsume_walk.
      - intros head2. destruct (negb _).
        + apply quiet_bind; [apply quiet_sort|intros head3]. apply quiet_write, quiet_return.
        + apply quiet_bind; [apply quiet_delete|intros _]. apply quiet_free, quiet_return. }
    rewrite Q. lia.
  Qed.
End Cost.

Section Query.
  Context {R : Type} (rt : result_type R).
  Variables (h : heap) (alg : algorithm) (x : str) (n : N) (B S : nat).
  Hypothesis Hx : manageable x n.
  Hypothesis Hn : (n <= SIZE_MAX)%N.
  Hypothesis HB : small_depth B.
  Hypothesis HS : most alg (N.to_nat n) <= S.
  Variables (al : allocators) (order : positions -> ptr -> bool) (fuel : nat) (base : world) (root : own) (rest : list own).
  Hypothesis HA : sound_allocators al.
  Hypothesis Hf : 6 * S + B + 10 <= fuel.
  Hypothesis Hr : readable base root.
  Notation held := (held h alg x n B S base root rest).

  (** What one step takes at most. *)
  Definition toll (q : query R) (q' : query R) : nat :=
    match q_edges q with [] => length (q_edges q') | _ => 4 * S + 6 end.

  Lemma try_step_enough w it q count b q' w' it' k : held w it q count -> advance_step rt h alg x n q = Ok (b, q') ->
    lazy_step rt fuel al order h alg x n w it = Ok (b, w', it') -> toll q q' <= k ->
    exists k', try_step rt fuel al order h alg x n (Some k) w it = Ok (Some k', w', it', Some b) /\ k <= k' + toll q q'.
  Proof.
    intros (Sm & (v & es & Q & Hq) & os & Ho & Rel & Bd & Cn) H El Hk.
    unfold toll in *. unfold advance_step in H. unfold lazy_step in El. unfold try_step.
    rewrite (rel_edges Rel) in *. destruct (q_edges q) as [|[label next] edges] eqn:Ee.
    - destruct (q_pending q) as [|y pending] eqn:Ep; [discriminate|].
      destruct (i_state y) as [|p st] eqn:Es; [discriminate|].
      destruct (ModelDawg.read h (i_node y)) as [nd| |] eqn:Er; try discriminate. cbn [rbind] in H.
      injection H as <- <-. cbn [q_edges] in *.
      pose proof Rel as [r1 _ _ _ _ _ _ _ _]. rewrite Ep in r1.
      destruct (l_pending it) as [|a pa]; [inversion r1|]. assert (Da : denotes (root :: os) a y) by (inversion r1; assumption).
      destruct (denotes_own Da) as (o & K1 & K2 & K3 & K4).
      destruct (readable_in Ho Hr K1) as (G1 & G2 & G3 & G4 & G5). subst a.
      rewrite (mread_ok G1 G2) in *. cbn [rbind] in *. rewrite (mread_ok G3 G4) in *. cbn [rbind] in *.
      destruct (get_pos (w_pos w) (o_head o)) as [pos| |]; try discriminate. cbn [rbind] in *.
      rewrite K3, Er in *. cbn [rbind] in *. injection El as <- <-.
      destruct (Nat.ltb_spec k (length (nedges nd))); [lia|].
      eexists. split; [reflexivity|]. lia.
    - destruct (q_current q) as [y|] eqn:Ec; [|discriminate]. cbn [deref rbind] in H.
      destruct (characteristic_vector label x (q_k q) (q_i q)) as [cv| |] eqn:Ecv; try discriminate.
      cbn [rbind] in H.
      destruct (state_transition alg n (N.of_nat (length x)) (i_state y) cv) as [o| |] eqn:Et; try discriminate.
      pose proof Rel as [_ _ _ _ r5 _ r7 r8 _]. rewrite Ec in r5.
      destruct (denotes_own r5) as (ox & K1 & K2 & K3 & K4).
      destruct (readable_in Ho Hr K1) as (G1 & G2 & G3 & G4 & G5).
      destruct (Sm y (or_intror Ec)) as [Sx Bx].
      assert (E : mread (w_int w) (l_current it) = Ok (o_cell ox)) by (rewrite <- K2; now apply mread_ok).
      rewrite E in *. cbn [rbind] in *. rewrite r7, r8, Ecv in *. cbn [rbind] in *.
      rewrite <- K4 in Et.
      assert (Hl : length (o_pos ox) <= S) by (rewrite <- (map_length snd), K4; exact Sx).
      destruct k as [|k]; [lia|]. cbn [spend].
      set (len := N.of_nat (length x)) in *.
      set (pt := p_state_transition fuel alg n len (ic_state (o_cell ox)) cv).
      destruct w as [m ss is]. cbn [w_pos w_st w_int] in *.
      pose proof (@cost_transition al order h HA alg n len m ss is (ic_state (o_cell ox)) (o_head ox) (o_pos ox) cv o fuel G3 G4 G5 Et ltac:(lia)) as C.
      fold pt in C.
      destruct (state_transition_pointers fuel (a_pos al) (a_st al) order alg n len m ss (ic_state (o_cell ox)) cv) as [[[m1 ss1] s]| |] eqn:Esp;
        try discriminate. cbn [rbind] in El.
      assert (Eal : alone al order h pt (World m ss is) = Ok (World m1 ss1 is, s)).
      { unfold pt. rewrite state_transition_alone, Esp. reflexivity. }
      rewrite (@attempt_cost al order h _ pt _ _ _ k Eal ltac:(lia)). cbn [rbind].
      set (c := cost al order h pt (World m ss is)) in *.
      destruct (negb (s =? null)%N).
      + assert (K : k - c = Datatypes.S (Datatypes.S (Datatypes.S (Datatypes.S (k - c - 4))))) by lia. rewrite K. cbn [spend].
        destruct (new_intersection al (World m1 ss1 is) _) as [z w2].
        destruct (ModelDawg.read h next) as [nd| |]; try discriminate. cbn [rbind] in *.
        destruct (nfin nd).
        * destruct (mread (w_st w2) s) as [hd| |]; try discriminate. cbn [rbind] in *.
          destruct (distance_pointers _ _ _ _ _) as [d| |]; try discriminate. cbn [rbind] in *.
          destruct (d <=? n)%N.
          -- destruct (intersection_str _ _ _) as [str0| |]; try discriminate. cbn [rbind] in *. injection El as <- <- <-.
             eexists. split; [reflexivity|]. lia.
          -- injection El as <- <- <-. eexists. split; [reflexivity|]. lia.
        * injection El as <- <- <-. eexists. split; [reflexivity|]. lia.
      + injection El as <- <- <-. eexists. split; [reflexivity|]. lia.
  Qed.

  (** What the edges that have been copied and not been looked at yet stand for. *)
  Lemma toll_tried q q' b : has_work q = true -> advance_step rt h alg x n q = Ok (b, q') ->
    toll q q' + length (q_edges q) = (4 * S + 7) * length (tried q) + length (q_edges q') /\
    length (q_edges q) <= length (tried q) + length (q_edges q').
  Proof.
    unfold toll, tried, advance_step. intros HW H. destruct (q_edges q) as [|[label next] edges]; [cbn; lia|].
    destruct (q_current q) as [y|] eqn:Ec; [|discriminate]. cbn [deref rbind] in H.
    assert (E : q_edges q' = edges); [|rewrite E; cbn [length]; lia].
    destruct (characteristic_vector _ _ _ _); try discriminate. cbn [rbind] in H.
    destruct (state_transition _ _ _ _ _) as [[st|]| |]; try discriminate; cbn [rbind] in H.
    - destruct (ModelDawg.read h next) as [nd| |]; try discriminate. cbn [rbind] in H.
      destruct (nfin nd); [destruct (_ <=? n)%N|]; injection H as <- <-; reflexivity.
    - injection H as <- <-. reflexivity.
  Qed.

  Lemma loop_edges f : forall q log q', has_work q = true -> log_loop rt h alg x n f q = Ok (log, q') ->
    length (q_edges q) <= length log + length (q_edges q').
  Proof.
    induction f as [|f IH]; intros q log q' HW E; [discriminate|]. cbn [log_loop] in E.
    destruct (advance_step rt h alg x n q) as [[b q1]| |] eqn:E1; try discriminate. cbn [rbind] in E.
    destruct (toll_tried HW E1) as [_ Tl]. destruct b; [|destruct (has_work q1) eqn:HW1].
    - injection E as <- <-. exact Tl.
    - destruct (log_loop rt h alg x n f q1) as [[log1 q2]| |] eqn:E2; try discriminate. cbn [rbind] in E. injection E as <- <-.
      pose proof (IH _ _ _ HW1 E2). rewrite app_length. lia.
    - injection E as <- <-. exact Tl.
  Qed.

  Lemma try_loop_enough f : forall w it q count log q' rounds, held w it q count -> has_work q = true ->
    log_loop rt h alg x n f q = Ok (log, q') -> f <= rounds -> exists w' it',
    lazy_loop rt fuel al order h alg x n rounds w it = Ok (w', it') /\
    held w' it' q' (count + length (filter (alive alg x n) log)) /\
    forall k, (4 * S + 7) * length log + length (q_edges q') <= k + length (q_edges q) ->
    exists k', try_loop rt fuel al order h alg x n rounds (Some k) w it = Ok (Some k', w', it', true) /\
      k + length (q_edges q) <= k' + (4 * S + 7) * length log + length (q_edges q').
  Proof.
    induction f as [|f IH]; intros w it q count log q' rounds Hh HW E Hl; [discriminate|]. cbn [log_loop] in E.
    destruct (advance_step rt h alg x n q) as [[b q1]| |] eqn:E1; try discriminate. cbn [rbind] in E.
    destruct rounds as [|rounds]; [lia|]. cbn [lazy_loop try_loop].
    destruct (held_step Hx Hn HB HS order HA Hf Hr Hh HW E1) as (w1 & it1 & El & Hh1). rewrite El. cbn [rbind].
    destruct (toll_tried HW E1) as [Tl _].
    assert (Wk : lazy_work it1 = has_work q1).
    { destruct Hh1 as (_ & _ & os & _ & Rel & _). exact (work_ok Rel). }
    rewrite Wk.
    assert (Step : forall k, toll q q1 <= k -> exists k', try_step rt fuel al order h alg x n (Some k) w it = Ok (Some k', w1, it1, Some b) /\ k <= k' + toll q q1).
    { intros k Hk. exact (try_step_enough Hh E1 El Hk). }
    destruct b; [|destruct (has_work q1) eqn:HW1].
    - injection E as <- <-. exists w1, it1. split; [reflexivity|]. split; [exact Hh1|]. intros k Hk.
      destruct (Step k ltac:(lia)) as (k' & -> & Hk'). cbn [rbind]. exists k'. split; [reflexivity|]. lia.
    - destruct (log_loop rt h alg x n f q1) as [[log1 q2]| |] eqn:E2; try discriminate. cbn [rbind] in E. injection E as <- <-.
      destruct (IH w1 it1 q1 _ log1 q2 rounds Hh1 HW1 E2 ltac:(lia)) as (w2 & it2 & E3 & Hh2 & Nx).
      exists w2, it2. split; [exact E3|]. rewrite filter_app, app_length, Nat.add_assoc. split; [exact Hh2|]. intros k Hk.
      rewrite app_length, Nat.mul_add_distr_l in Hk. pose proof (loop_edges HW1 E2) as Le.
      destruct (Step k ltac:(lia)) as (k1 & -> & Hk1). cbn [rbind]. rewrite Wk.
      destruct (Nx k1 ltac:(lia)) as (k2 & -> & Hk2). exists k2. split; [reflexivity|]. rewrite app_length, Nat.mul_add_distr_l. lia.
    - injection E as <- <-. exists w1, it1. split; [reflexivity|]. split; [exact Hh1|]. intros k Hk.
      destruct (Step k ltac:(lia)) as (k' & -> & Hk'). cbn [rbind]. rewrite Wk. exists k'. split; [reflexivity|]. lia.
  Qed.

  Lemma try_advance_enough f w it q count log q' : held w it q count -> log_advance rt h alg x n f q = Ok (log, q') -> f <= fuel ->
    exists w' it', lazy_advance rt fuel al order h alg x n w it = Ok (w', it') /\
    held w' it' q' (count + length (filter (alive alg x n) log)) /\
    forall k, (4 * S + 7) * length log + length (q_edges q') <= k + length (q_edges q) ->
    exists k', try_advance rt fuel al order h alg x n (Some k) w it = Ok (Some k', w', it', true) /\
      k + length (q_edges q) <= k' + (4 * S + 7) * length log + length (q_edges q').
  Proof.
    intros Hh E Hl. unfold lazy_advance, try_advance, log_advance in *.
    assert (Wk : lazy_work it = has_work q).
    { destruct Hh as (_ & _ & os & _ & Rel & _). exact (work_ok Rel). }
    rewrite Wk. destruct (has_work q) eqn:HW.
    - exact (try_loop_enough (held_complete Hh) HW E Hl).
    - injection E as <- <-. exists w, (lazy_complete it). split; [reflexivity|]. cbn [filter length]. rewrite Nat.add_0_r.
      split; [now apply held_complete|]. intros k Hk. exists k. split; [reflexivity|]. cbn. lia.
  Qed.

  Lemma advance_edges f q log q' : log_advance rt h alg x n f q = Ok (log, q') -> length (q_edges q) <= length log + length (q_edges q').
  Proof.
    unfold log_advance. destruct (has_work q) eqn:HW; intros E; [exact (loop_edges (q := set_complete q) HW E)|].
    injection E as <- <-. cbn. lia.
  Qed.

  Variables (r0 : ptr) (t : tree).
  Hypothesis Ht : unf h r0 t.
  Hypothesis Hh0 : height t <= Datatypes.S B.
  Hypothesis D : denotes [root] (o_ptr root) (RootI r0 initial_state).

  Lemma try_begin_enough f w log q' : owns w base rest -> log_new rt h alg x n f (RootI r0 initial_state) = Ok (log, q') -> f <= fuel ->
    exists w' it', lazy_begin rt fuel al order h alg x n w (o_ptr root) = Ok (w', it') /\
    held w' it' q' (length (filter (alive alg x n) log)) /\
    forall k, 2 + (4 * S + 7) * length log + length (q_edges q') <= k ->
    exists k', try_begin rt fuel al order h alg x n (Some k) w (o_ptr root) = Ok (Some k', w', Some it') /\
      k <= k' + 2 + (4 * S + 7) * length log + length (q_edges q').
  Proof.
    intros Ho E Hl.
    destruct (held_begin Hx Hn HB HS order HA Hf Hr Ht Hh0 D Ho E Hl) as (w' & it' & El & Hh).
    exists w', it'. split; [exact El|]. split; [exact Hh|]. intros k Hk. revert E El.
    unfold lazy_begin, try_begin, log_new. cbn [i_node].
    destruct (denotes_own D) as (o & [<-|[]] & _ & K3 & K4). cbn [i_node i_state] in K3, K4.
    destruct (readable_owns Ho Hr) as (G1 & G2 & _). rewrite (mread_ok G1 G2). cbn [rbind]. rewrite K3.
    destruct (ModelDawg.read h r0) as [nd| |]; try discriminate. cbn [rbind].
    destruct k as [|k]; [lia|]. cbn [spend]. intros E El.
    destruct (nfin nd && _).
    - injection E as <- <-. injection El as <- <-. destruct k as [|k]; [cbn in Hk; lia|]. cbn [spend]. exists k. split; [reflexivity|]. cbn. lia.
    - assert (H0 : held w (LazyQuery [o_ptr root] [] [] false null (r_default rt) 0%N 0%N)
                     (Query [RootI r0 initial_state] [] false None (r_default rt) 0%N 0%N) 0).
      { split; [|split].
        - intros i [[<-|[]]|Hi]; [|discriminate]. cbn. unfold most in HS. destruct alg; lia.
        - exists [], [], [([], t)]. constructor; cbn.
          + constructor; [constructor; cbn; auto using represents_initial|constructor].
          + constructor.
          + tauto.
          + congruence.
        - exists []. split; [exact Ho|]. split; [constructor; cbn; auto|]. split; [intros ? []|reflexivity]. }
      destruct (try_advance_enough H0 E Hl) as (w1 & it1 & El1 & _ & X). rewrite El in El1. injection El1 as <- <-.
      cbn [q_edges length] in X. destruct (X k ltac:(lia)) as (k' & -> & Hk'). cbn [rbind]. exists k'. split; [reflexivity|]. lia.
  Qed.
End Query.

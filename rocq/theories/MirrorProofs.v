(** * MirrorProofs: two dictionaries that look the same from their roots do the same,
    call by call, also where a call never ends. *)
From Verif Require Import Base Spec ModelHash ModelTransducer ModelDawg ModelQuery.
Local Open Scope nat_scope.

Definition both {A B : Type} (R : A -> B -> Prop) (a : res A) (b : res B) : Prop :=
  match a, b with Ok x, Ok y => R x y | UB, UB => True | OOF, OOF => True | _, _ => False end.

Lemma both_bind : forall A B C D (R : A -> B -> Prop) (S : C -> D -> Prop) a b f g,
  both R a b -> (forall x y, R x y -> both S (f x) (g y)) -> both S (rbind a f) (rbind b g).
Proof. intros A B C D R S [x| |] [y| |] f g H K; cbn in *; auto; contradiction. Qed.

Lemma both_eq : forall A (a b : res A), both eq a b -> a = b.
Proof. intros A [x| |] [y| |] H; cbn in H; congruence || contradiction. Qed.

Lemma eq_both : forall A (a : res A), both eq a a.
Proof. intros A [x| |]; cbn; auto. Qed.

Section Mirror.
  Variables (h h' : heap) (M : ptr -> ptr -> Prop).

  Definition edges_like (es es' : list (char * ptr)) : Prop := Forall2 (fun e e' => fst e = fst e' /\ M (snd e) (snd e')) es es'.
  Definition nodes_like (n n' : node) : Prop := nfin n = nfin n' /\ edges_like (nedges n) (nedges n').

  Hypothesis HM : forall p p', M p p' -> p <> null /\ p' <> null /\ both nodes_like (read h p) (read h' p').

  (** ** contains *)
  Lemma edge_like : forall es es' c, edges_like es es' ->
    match edge_get es c, edge_get es' c with Some q, Some q' => M q q' | None, None => True | _, _ => False end.
  Proof.
    intros es es' c F. induction F as [|[d q] [d' q'] es es' [E Q] F IH]; cbn [edge_get]; [exact I|]. cbn [fst snd] in *. subst d'. destruct (ceqb c d); auto.
  Qed.

  Definition like_or_null (p p' : ptr) : Prop := M p p' \/ p = null /\ p' = null.

  Lemma contains_loop_like : forall w p p' i, like_or_null p p' -> both like_or_null (contains_loop h p i w) (contains_loop h' p' i w).
  Proof.
    induction w as [|c w IH]; intros p p' i L; cbn [contains_loop]; [exact L|].
    destruct L as [L|[-> ->]]; [|cbn; right; auto].
    destruct (HM p p' L) as (N & N' & B). apply N.eqb_neq in N, N'. rewrite N, N'.
    eapply both_bind; [exact B|]. intros n n' [_ F]. destruct (i =? 2147483647)%N; [exact I|]. apply IH.
    unfold transition. pose proof (edge_like _ _ c F) as X. destruct (edge_get (nedges n) c), (edge_get (nedges n') c); try contradiction; [now left|now right].
  Qed.

  Lemma contains_like : forall p p' s s' w, M p p' -> contains h (Dawg p s) w = contains h' (Dawg p' s') w.
  Proof.
    intros p p' s s' w L. apply both_eq. unfold contains. cbn [d_root]. eapply both_bind; [apply contains_loop_like; left; exact L|].
    intros q q' [K|[-> ->]]; [|reflexivity]. destruct (HM q q' K) as (N & N' & B). apply N.eqb_neq in N, N'. rewrite N, N'.
    eapply both_bind; [exact B|]. intros n n' [F _]. cbn. exact F.
  Qed.

  (** ** Hash codes *)
  Lemma node_hash_like : forall fuel n n', nodes_like n n' -> node_hash fuel h n = node_hash fuel h' n'.
  Proof.
    induction fuel as [|fuel IH]; intros n n' [Fn F]; cbn [node_hash]; [reflexivity|]. rewrite Fn. f_equal. generalize DEADBEEF.
    induction F as [|[c q] [c' q'] es es' [E Q] F IHF]; intros code; [reflexivity|]. cbn [fst snd] in *. subst c'.
    destruct (HM q q' Q) as (_ & _ & B). apply both_eq. eapply both_bind; [exact B|]. intros m m' L. rewrite (IH m m' L).
    eapply both_bind; [apply eq_both|]. intros k _ <-. rewrite IHF. apply eq_both.
  Qed.

  Lemma dawg_hash_like : forall fuel p p' s, M p p' -> dawg_hash fuel h (Dawg p s) = dawg_hash fuel h' (Dawg p' s).
  Proof.
    intros fuel p p' s L. unfold dawg_hash. cbn [d_root d_size]. destruct (HM p p' L) as (_ & _ & B). apply both_eq. eapply both_bind; [exact B|].
    intros n n' K. rewrite (node_hash_like fuel n n' K). apply eq_both.
  Qed.

  (** ** Iterating *)
  Definition prefix_like (p p' : prefix) : Prop := M (prefix_node p) (prefix_node p') /\ prefix_str p = prefix_str p'.
  Definition iter_like (i i' : iter) : Prop := Forall2 prefix_like (it_pending i) (it_pending i') /\ it_value i = it_value i' /\ it_index i = it_index i'.

  Lemma advance_loop_like : forall fuel P P', Forall2 prefix_like P P' ->
    both (fun a b => Forall2 prefix_like (fst (fst a)) (fst (fst b)) /\ prefix_like (snd (fst a)) (snd (fst b)) /\ nodes_like (snd a) (snd b)) (advance_loop fuel h P) (advance_loop fuel h' P').
  Proof.
    induction fuel as [|fuel IH]; intros P P' F; cbn [advance_loop]; [exact I|]. destruct F as [|p p' P P' [L S] F]; [exact I|].
    destruct (HM _ _ L) as (_ & _ & B). eapply both_bind; [exact B|]. intros n n' [Fn Fe].
    assert (F2 : Forall2 prefix_like (P ++ map (fun e => ChildPrefix (snd e) p (fst e)) (nedges n)) (P' ++ map (fun e => ChildPrefix (snd e) p' (fst e)) (nedges n'))).
    { apply Forall2_app; [exact F|]. clear -Fe S. induction Fe as [|e e' es es' [E Q] Fe IH]; cbn [map]; constructor; auto. split; cbn [prefix_node prefix_str]; [exact Q|]. congruence. }
    rewrite <- Fn. destruct (nfin n) eqn:E.
    - split; [exact F2|]. split; [split; auto|]. split; [cbn [snd]; congruence|exact Fe].
    - revert F2. generalize (P ++ map (fun e => ChildPrefix (snd e) p (fst e)) (nedges n)), (P' ++ map (fun e => ChildPrefix (snd e) p' (fst e)) (nedges n')). intros R R' F2.
      destruct F2 as [|y y' R R' Y F2]; [|apply IH; constructor; auto].
      split; [constructor|]. split; [split; auto|]. split; [cbn [snd]; congruence|exact Fe].
  Qed.

  Lemma advance_like : forall fuel i i', iter_like i i' -> both iter_like (advance fuel h i) (advance fuel h' i').
  Proof.
    intros fuel i i' (F & V & X). unfold advance. destruct i as [P V1 X1], i' as [P' V2 X2]; cbn [it_pending it_value it_index] in *. destruct F as [|p p' P P' L F].
    - cbn. split; [constructor|]. auto.
    - eapply both_bind; [apply advance_loop_like; constructor; eauto|]. intros [[R q] n] [[R' q'] n'] (F2 & (_ & S) & (Fn & _)). cbn [fst snd] in *.
      cbn. rewrite <- Fn. split; [exact F2|]. split; [|exact X]. cbn [it_value]. destruct (nfin n); congruence.
  Qed.

  Lemma iterate_loop_like : forall k fuel last i i', iter_like i i' -> iterate_loop k fuel h last i = iterate_loop k fuel h' last i'.
  Proof.
    induction k as [|k IH]; intros fuel last i i' L; cbn [iterate_loop]; [reflexivity|]. pose proof L as (_ & V & X). rewrite <- X, <- V. destruct (N.eqb (it_index i) last); [reflexivity|].
    apply both_eq. eapply both_bind with (R := iter_like).
    - unfold iter_next. eapply both_bind; [apply advance_like; exact L|]. intros j j' (F & V' & X'). cbn. rewrite <- X'. split; [exact F|]. auto.
    - intros j j' K. rewrite (IH fuel last j j' K). apply eq_both.
  Qed.

  Lemma iterate_like : forall fuel p p' s, M p p' -> iterate fuel h (Dawg p s) = iterate fuel h' (Dawg p' s).
  Proof.
    intros fuel p p' s L. apply both_eq. unfold iterate, dawg_begin. cbn [d_root d_size]. eapply both_bind.
    - apply advance_like. split; [|auto]. constructor; [|constructor]. split; [exact L|reflexivity].
    - intros i i' K. rewrite (iterate_loop_like fuel fuel s i i' K). apply eq_both.
  Qed.

  (** ** Finding all nodes *)
  Lemma all_nodes_loop_like : forall fuel P P' N N', Forall2 M P P' -> both (fun _ _ => True) (all_nodes_loop fuel h P N) (all_nodes_loop fuel h' P' N').
  Proof.
    induction fuel as [|fuel IH]; intros P P' N N' F; cbn [all_nodes_loop]; [exact I|]. destruct F as [|p p' P P' L F]; [exact I|].
    destruct (HM _ _ L) as (_ & _ & B). eapply both_bind; [exact B|]. intros n n' [_ Fe]. apply IH. apply Forall2_app; [exact F|].
    clear -Fe. induction Fe as [|e e' es es' [_ Q] Fe IH]; cbn [map]; constructor; auto.
  Qed.

  (** ** Queries *)
  Definition inter_like (i i' : intersection) : Prop := M (i_node i) (i_node i') /\ i_state i = i_state i' /\ i_str i = i_str i'.
  Record query_like {R : Type} (q q' : query R) : Prop := {
    ql_pending : Forall2 inter_like (q_pending q) (q_pending q');
    ql_edges : edges_like (q_edges q) (q_edges q');
    ql_complete : q_complete q = q_complete q';
    ql_current : match q_current q, q_current q' with Some i, Some i' => inter_like i i' | None, None => True | _, _ => False end;
    ql_candidate : q_candidate q = q_candidate q';
    ql_k : q_k q = q_k q';
    ql_i : q_i q = q_i q';
  }.

  Context {R : Type} (rt : result_type R).
  Variables (alg : algorithm) (x : str) (n : N).

  Lemma work_like : forall (q q' : query R), query_like q q' -> has_work q = has_work q'.
  Proof. intros q q' [P E _ _ _ _ _]. unfold has_work. destruct E; [|reflexivity]. destruct P; reflexivity. Qed.

  Lemma step_like : forall q q', query_like q q' -> both (fun a b => fst a = fst b /\ query_like (snd a) (snd b)) (advance_step rt h alg x n q) (advance_step rt h' alg x n q').
  Proof.
    intros q q' [P E C Cu Ca K I]. unfold advance_step. inversion E as [E1 E2|[c p] [c' p'] es es' [Ec Ep] Es E1 E2].
    - inversion P as [P1 P2|i i' r r' (L & St & Ss) Fr P1 P2]; [exact Logic.I|]. rewrite <- St. destruct (i_state i) as [|hd tl] eqn:Si; [exact Logic.I|].
      destruct (HM _ _ L) as (_ & _ & B). eapply both_bind; [exact B|]. intros m m' [_ Fm]. cbn. split; [reflexivity|].
      constructor; cbn [q_pending q_edges q_complete q_current q_candidate q_k q_i]; auto. split; [exact L|]. split; [congruence|exact Ss].
    - cbn [fst snd] in *. subst c'. rewrite <- K, <- I. eapply both_bind with (R := inter_like).
      { destruct (q_current q), (q_current q'); cbn; auto; contradiction. }
      intros i i' (L & St & Ss). eapply both_bind; [apply eq_both|]. intros cv _ <-. rewrite <- St. eapply both_bind; [apply eq_both|]. intros o _ <-.
      destruct o as [st|].
      + destruct (HM _ _ Ep) as (_ & _ & B). eapply both_bind; [exact B|]. intros m m' [Fm _].
        assert (F2 : Forall2 inter_like (q_pending q ++ [ChildI c p st i]) (q_pending q' ++ [ChildI c p' st i'])).
        { apply Forall2_app; [exact P|]. constructor; [|constructor]. split; [exact Ep|]. split; [reflexivity|]. cbn [i_str]. congruence. }
        rewrite <- Fm. destruct (nfin m); [destruct (N.leb _ _)|]; (split; [reflexivity|]); constructor; cbn [snd q_pending q_edges q_complete q_current q_candidate q_k q_i i_str]; auto; congruence.
      + split; [reflexivity|]. constructor; cbn [snd q_pending q_edges q_complete q_current q_candidate q_k q_i]; auto.
  Qed.

  Lemma query_loop_like : forall fuel q q', query_like q q' -> both query_like (advance_query_loop rt h alg x n fuel q) (advance_query_loop rt h' alg x n fuel q').
  Proof.
    induction fuel as [|fuel IH]; intros q q' L; cbn [advance_query_loop]; [exact I|]. eapply both_bind; [apply step_like; exact L|].
    intros [b r] [b' r'] [E K]. cbn [fst snd] in *. subst b'. rewrite <- (work_like _ _ K). destruct b; [exact K|]. destruct (has_work r); [now apply IH|exact K].
  Qed.

  Lemma set_complete_like : forall q q' : query R, query_like q q' -> query_like (set_complete q) (set_complete q').
  Proof. intros q q' [P E C Cu Ca K I]. constructor; auto. Qed.

  Lemma advance_query_like : forall fuel q q', query_like q q' -> both query_like (advance_query rt h alg x n fuel q) (advance_query rt h' alg x n fuel q').
  Proof.
    intros fuel q q' L. unfold advance_query. rewrite <- (work_like _ _ L). destruct (has_work q); [|exact (set_complete_like _ _ L)]. apply query_loop_like, set_complete_like, L.
  Qed.

  Lemma begin_like : forall fuel p p', M p p' -> both query_like (begin_query rt fuel h (new_transducer alg p) x n) (begin_query rt fuel h' (new_transducer alg p') x n).
  Proof.
    intros fuel p p' L. unfold begin_query, new_query, new_transducer. cbn [tr_alg tr_root i_node]. destruct (HM _ _ L) as (_ & _ & B). eapply both_bind; [exact B|]. intros m m' [Fm _].
    assert (I0 : forall st, inter_like (RootI p st) (RootI p' st)) by (intros st; split; [exact L|split; reflexivity]).
    rewrite <- Fm. destruct (nfin m && _); [constructor; cbn; auto; constructor; auto|]. apply advance_query_like. constructor; cbn; auto; constructor; auto.
  Qed.

  Lemma collect_like : forall k fuel q q', query_like q q' -> collect rt h alg x n k fuel q = collect rt h' alg x n k fuel q'.
  Proof.
    induction k as [|k IH]; intros fuel q q' L; cbn [collect]; [reflexivity|]. unfold query_eq. rewrite <- (ql_complete _ _ L), <- (ql_candidate _ _ L). destruct (q_complete q); [reflexivity|].
    apply both_eq. eapply both_bind; [apply advance_query_like; exact L|]. intros r r' K. rewrite (IH fuel r r' K). apply eq_both.
  Qed.

  Lemma query_all_like : forall fuel p p', M p p' -> query_all rt fuel h (new_transducer alg p) x n = query_all rt fuel h' (new_transducer alg p') x n.
  Proof.
    intros fuel p p' L. apply both_eq. unfold query_all. eapply both_bind; [apply begin_like; exact L|]. intros q q' K. cbn [tr_alg new_transducer]. rewrite (collect_like _ fuel q q' K). apply eq_both.
  Qed.

  Lemma query_after_like : forall fuel p p' k, M p p' -> both query_like (query_after rt fuel h (new_transducer alg p) x n k) (query_after rt fuel h' (new_transducer alg p') x n k).
  Proof.
    intros fuel p p' k L. unfold query_after. eapply both_bind; [apply begin_like; exact L|]. cbn [tr_alg new_transducer]. induction k as [|k IH]; intros q q' K; cbn [increments]; [exact K|].
    eapply both_bind; [apply advance_query_like; exact K|exact IH].
  Qed.
End Mirror.

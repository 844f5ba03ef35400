(** * OverProofs: a term that is linked over the old ones that begin like it. *)
From Coq Require Import Sorting.Sorted.
From Verif Require Import Base Spec ModelHash ModelDawg SpecDawg TreeProofs HeapProofs
  BuildProofs BuildProofs2 IterProofs DawgProofs SpecResume ReopenProofs ResumeProofs.
From Verif Require ReplaceProofs GraftProofs.

(** The loops do not look at what is below on the stack, nor at the set of nodes. *)
Lemma push_below : forall alloc rest h un m fl s h' w' l, push_suffix alloc h (Work un m fl) s rest = (h', w', l) ->
  forall bot flx q, (forall y, In y flx <-> In y fl \/ y = q) -> NoDup flx ->
  exists fl', push_suffix alloc h (Work (un ++ bot) m flx) s rest = (h', Work (w_unchecked w' ++ bot) m fl', l) /\
    w_minimized w' = m /\ (forall y, In y fl' <-> In y (w_floating w') \/ y = q) /\ NoDup fl'.
Proof.
  intros alloc. induction rest as [|c rest IH]; intros h un m fl s h' w' l E bot flx q F N.
  - cbn in E. injection E as <- <- <-. exists flx. auto.
  - cbn [push_suffix] in E |- *. destruct (new_node alloc h false) as [t h1]. cbn [w_unchecked w_minimized w_floating] in *.
    apply (IH _ (Trans c s t :: un) m (set_insert t fl) t h' w' l E bot).
    + intros y. rewrite !set_insert_In, F. tauto.
    + apply set_insert_NoDup; auto.
Qed.

Lemma minimize_below : forall k fuel h w h' w', minimize_loop k fuel h w = Ok (h', w') ->
  forall bot flx j, minimize_loop (k + j) fuel h (Work (w_unchecked w ++ bot) (w_minimized w) flx) =
    minimize_loop j fuel h' (Work (w_unchecked w' ++ bot) (w_minimized w') flx).
Proof.
  induction k as [|k IH]; intros fuel h w h' w' E bot flx j.
  - cbn in E. injection E as <- <-. auto.
  - cbn [minimize_loop plus] in E |- *. destruct w as [un m fl]. cbn [w_unchecked w_minimized w_floating] in *.
    destruct un as [|[c s t] un]; [discriminate|]. cbn [app].
    destruct (minimized_node fuel h m t) as [e| |]; try discriminate. cbn [rbind] in *.
    destruct (e =? null)%N.
    + destruct (add_edge h s c t) as [h2| |]; try discriminate. cbn [rbind] in *.
      destruct (map_assign fuel h2 m t) as [m2| |]; try discriminate. cbn [rbind] in *.
      apply (IH _ _ _ _ _ E bot flx j).
    + destruct (add_edge h s c e) as [h2| |]; try discriminate. cbn [rbind] in *.
      apply (IH _ _ _ _ _ E bot flx j).
Qed.

Lemma minimize_floating : forall k fuel h w h' w', minimize_loop k fuel h w = Ok (h', w') -> w_floating w' = w_floating w.
Proof.
  induction k as [|k IH]; intros fuel h w h' w' E.
  - cbn in E. injection E as <- <-. auto.
  - cbn [minimize_loop] in E. destruct w as [un m fl]. cbn [w_unchecked w_minimized w_floating] in *.
    destruct un as [|[c s t] un]; [discriminate|].
    destruct (minimized_node fuel h m t) as [e| |]; try discriminate. cbn [rbind] in *.
    destruct (e =? null)%N.
    + destruct (add_edge h s c t) as [h2| |]; try discriminate. cbn [rbind] in *.
      destruct (map_assign fuel h2 m t) as [m2| |]; try discriminate. cbn [rbind] in *.
      apply IH in E. auto.
    + destruct (add_edge h s c e) as [h2| |]; try discriminate. cbn [rbind] in *.
      apply IH in E. auto.
Qed.

(** The dictionary after init, add of such a term, and finish: [q] is where the old
    edge led, [x] where the new one leads, [fl] the new nodes. *)
Record over (h : heap) (root : ptr) (c : char) (q : ptr) (r : str) (h' : heap) (x : ptr) (fl : list ptr) : Prop := {
  ov_fresh : forall y, In y fl -> y <> null /\ hget h y = None /\ allocated h' y;
  ov_nodup : NoDup fl;
  ov_gone : hget h' q = None;
  ov_root : exists n, hget h root = Some n /\ hget h' root = Some (Node (nfin n) (edge_set (nedges n) c x));
  ov_else : forall y, ~ In y fl -> y <> q -> y <> root -> hget h' y = hget h y;
  ov_tree : unf h' x (trie [r]);
  ov_new : forall y, reach h' x y -> In y fl;
}.

Lemma over_ok : forall alloc h b stored p0 c r r' q, allocator alloc ->
  unf h (d_root (b_dawg b)) (trie stored) -> b_prev b = p0 ++ r' -> differ (c :: r) r' ->
  ~ lex_lt (p0 ++ c :: r) (b_prev b) -> path h (d_root (b_dawg b)) [c] q ->
  exists h' b' x w, runs_to (fun fuel => continued fuel alloc h b [Enter (p0 ++ c :: r)]) ([true], h', b') /\
    d_root (b_dawg b') = d_root (b_dawg b) /\ d_size (b_dawg b') = wadd (d_size (b_dawg b)) 1 /\
    b_work b' = Some w /\ over h (d_root (b_dawg b)) c q r h' x (w_floating w).
Proof.
  intros alloc h b stored p0 c r r' q A U Ep D NL P. set (root := d_root (b_dawg b)) in *.
  destruct (unf_inv _ _ _ U) as (n & NN & G & So & Us & _).
  assert (Eq : In (c, q) (nedges n)).
  { inversion P as [|? n' ? z ? ? G' I P']; subst. inversion P'; subst. congruence. }
  destruct (A h) as [N1 F1]. set (q1 := alloc h) in *. set (h1 := hset h q1 (Node false [])).
  assert (U1 : unf h1 q1 leaf).
  { eapply unf_intro; [auto|apply hget_hset_same|]. repeat split; cbn; constructor. }
  set (B := length r + 2).
  assert (O : open B h1 h1 h1 (init (Builder (Dawg q1 0) [] None)) [] [] (Work [] [] []) [] (trie [])).
  { eapply opened with (root := q1) (size := 0%N) (prev := []); eauto. unfold B. cbn. lia. }
  pose proof (op_inv _ _ _ _ _ _ _ _ _ _ O) as I0. cbn [init b_dawg d_root] in I0.
  assert (No : forall y, ~ inner h1 q1 y).
  { intros y [R N]. apply N. eapply (closed_reach _ (fun z => z = q1)); [|reflexivity|exact R].
    intros z m d y' -> G' J. unfold h1 in G'. rewrite hget_hset_same in G'. injection G' as <-. destruct J. }
  destruct (rpush_suffix_ok _ alloc A r B h1 h1 q1 _ _ _ I0) as (h2 & w2 & frs2 & t2 & E2 & I2 & T2 & L2 & _).
  { cbn [w_unchecked top]. intros d rest _ m G'. unfold h1 in G'. rewrite hget_hset_same in G'. injection G' as <-. auto. }
  cbn [w_unchecked top] in E2.
  destruct (rset_final_ok _ B h1 h2 q1 w2 frs2 t2 I2) as (nt & Gt & E3 & I3). cbv zeta in E3, I3.
  set (h3 := hset h2 (top q1 (w_unchecked w2)) (Node true (nedges nt))) in *.
  assert (Hh : height (fill frs2 (T true (tedges t2))) <= B).
  { rewrite T2. cbn [fill]. apply height_tadd; unfold B; cbn; lia. }
  destruct (rminimize_loop_ok _ (length (w_unchecked w2)) B h1 h3 q1 w2 _ _ I3 Hh (le_n _)) as (h4 & w4 & frs4 & t4 & E4 & I4 & T4 & S4).
  rewrite skipn_all in S4.
  pose proof (rv_links _ _ _ _ _ _ _ _ I4) as Li. rewrite S4 in Li. inversion Li. subst frs4. cbn [fill] in T4.
  pose proof (rv_top _ _ _ _ _ _ _ _ I4) as Ut. rewrite S4 in Ut. cbn [top] in Ut.
  assert (Et : t4 = trie [r]) by (rewrite T4, T2; reflexivity). rewrite Et in Ut. clear T4.
  destruct (push_below _ _ _ _ _ _ _ _ _ _ E2 [Trans c root q1] [q1] q1) as (fl & E2' & M2 & Fl & Nd).
  { intros y. cbn. intuition. } { constructor; [intros []|constructor]. }
  assert (F4 : w_floating w4 = w_floating w2) by (eapply minimize_floating, (E4 B (le_n B))).
  assert (Fl4 : forall y, In y fl <-> In y (q1 :: w_floating w4)).
  { intros y. rewrite Fl, F4. cbn. intuition. }
  assert (Fresh : forall y, In y fl -> y <> null /\ hget h y = None /\ allocated h4 y).
  { intros y J. apply Fl4 in J. destruct (rv_own _ _ _ _ _ _ _ _ I4 y J) as (Ny & Al). split; [auto|split; [|auto]].
    destruct J as [<-|J]; [auto|]. pose proof (rv_new _ _ _ _ _ _ _ _ I4 y J) as X. unfold h1 in X. rewrite hget_hset in X.
    destruct (N.eqb y q1); [discriminate|auto]. }
  assert (Base : forall y, ~ In y fl -> hget h4 y = hget h y).
  { intros y J. rewrite Fl4 in J. rewrite (rv_base _ _ _ _ _ _ _ _ I4 y J). unfold h1. apply hget_hset_other. intros ->. apply J. left; auto. }
  assert (Old : forall y m, hget h y = Some m -> hget h4 y = Some m /\ ~ In y fl).
  { intros y m Gy. assert (J : ~ In y fl) by (intros J; apply Fresh in J; destruct J as (_ & J & _); congruence).
    split; auto. rewrite Base; auto. }
  assert (Uq : exists tq, unf h q tq).
  { pose proof (unfs_get _ _ _ c Us) as X. rewrite (edge_In_get _ _ _ _ So Eq) in X. destruct X as (tq & _ & X). eauto. }
  destruct Uq as (tq & Uq). destruct (unf_inv _ _ _ Uq) as (nq & NNq & Gq & _).
  assert (Nqr : q <> root).
  { intros ->. apply (ReplaceProofs.unf_no_return _ _ _ _ U) in P. discriminate. }
  destruct (Old _ _ G) as (G4 & Jr). destruct (Old _ _ Gq) as (Gq4 & Jq).
  pose proof (rv_min _ _ _ _ _ _ _ _ I4) as Mi.
  assert (Good : forall y, good (inner h1 q1) (w_minimized w4) y -> In y fl).
  { intros y [X|X]; [destruct (No y X)|]. apply Fl4. right. apply (rv_mfloat _ _ _ _ _ _ _ _ I4). auto. }
  (* the last link *)
  set (h5 := fun x => hset (hdel h4 q) root (Node (nfin n) (edge_set (nedges n) c x))).
  assert (Link : forall x, add_edge h4 root c x = Ok (h5 x)).
  { intros x. unfold add_edge. rewrite (read_ok _ _ _ NN G4). cbn [rbind]. unfold transition at 1. rewrite (edge_In_get _ _ _ _ So Eq).
    unfold delete. rewrite (proj2 (N.eqb_neq _ _) NNq), Gq4. cbn [rbind].
    assert (X : hget (hdel h4 q) root = Some n) by (rewrite hget_hdel, (proj2 (N.eqb_neq _ _) (fun E => Nqr (eq_sym E))); auto).
    rewrite (read_ok _ _ _ NN X). reflexivity. }
  assert (Same : forall x y, In y fl -> hget (h5 x) y = hget h4 y).
  { intros x y J. unfold h5. rewrite hget_hset_other by congruence. rewrite hget_hdel.
    destruct (N.eqb_spec y q) as [->|]; [contradiction|auto]. }
  assert (Kin : forall x, kinv (inner h1 q1) B (h5 x) (w_minimized w4)).
  { intros x. eapply kinv_frame; eauto. }
  assert (Q1 : In q1 fl) by (apply Fl4; left; auto).
  set (Q := fun y => y = q1 \/ good (inner h1 q1) (w_minimized w4) y).
  assert (Qf : forall y, Q y -> In y fl) by (intros y [->|X]; auto).
  assert (Cl : forall x, closed (h5 x) Q).
  { intros x y m d z J Gy K. rewrite Same in Gy by auto. destruct J as [->|J].
    - destruct (rv_edges _ _ _ _ _ _ _ _ I4 q1 (or_introl eq_refl)) as (m1 & Gm1 & _ & Ed). assert (m1 = m) by congruence. subst m1. right. eauto.
    - right. eapply (ki_closed _ _ _ _ Mi); eauto. }
  assert (Fin : forall x, Q x -> unf h4 x (trie [r]) -> over h root c q r (h5 x) x fl).
  { intros x Qx Ux. constructor; auto.
    - intros y J. destruct (Fresh y J) as (? & ? & Al). split; [auto|split; [auto|]]. unfold allocated in *. rewrite Same; auto.
    - unfold h5. rewrite hget_hset_other by auto. rewrite hget_hdel, N.eqb_refl. auto.
    - exists n. split; auto. unfold h5. apply hget_hset_same.
    - intros y J Ny Nr. unfold h5. rewrite hget_hset_other by auto. rewrite hget_hdel, (proj2 (N.eqb_neq _ _) Ny). auto.
    - eapply unf_frame with (P := Q) (h := h4); eauto.
      intros y m d z J Gy K. eapply (Cl x); eauto. rewrite Same; auto.
    - intros y R. apply Qf. eapply closed_reach; eauto. }
  destruct (unf_inv _ _ _ Ut) as (nt4 & _ & Gt4 & Nt4).
  assert (Hr : height (trie [r]) <= B) by (rewrite T2 in Hh; exact Hh).
  destruct (map_find_ok B h4 nt4 (trie [r]) (w_minimized w4) Nt4 Hr) as (e & Ef & De).
  { intros e J. destruct (ki_ent _ _ _ _ Mi e J) as (? & _ & te & ? & ? & _). eauto. }
  assert (Efind : forall fuel, B <= fuel -> minimized_node fuel h4 (w_minimized w4) q1 = Ok e).
  { intros fuel Hf. unfold minimized_node. rewrite (read_ok _ _ _ N1 Gt4). cbn [rbind].
    rewrite (node_hash_ok fuel h4 nt4 _ Nt4) by lia. cbn [rbind]. auto. }
  assert (Last : exists x m, Q x /\ unf h4 x (trie [r]) /\
    forall fuel, B <= fuel -> minimize_loop 1 fuel h4 (Work [Trans c root q1] (w_minimized w4) fl) = Ok (h5 x, Work [] m fl)).
  { destruct De as [[-> Dn]|(en & Je & -> & Ne)].
    - exists q1, (w_minimized w4 ++ [Entry (thash (trie [r])) nt4 q1]). split; [left; auto|]. split; [auto|].
      intros fuel Hf. cbn [minimize_loop w_unchecked w_minimized w_floating]. rewrite Efind by auto. cbn [rbind]. rewrite N.eqb_refl.
      rewrite Link. cbn [rbind].
      assert (G5 : hget (h5 q1) q1 = Some nt4) by (rewrite Same; auto).
      assert (N5 : nunf (h5 q1) nt4 (trie [r])).
      { pose proof (ov_tree _ _ _ _ _ _ _ _ (Fin q1 (or_introl eq_refl) Ut)) as X.
        destruct (unf_inv _ _ _ X) as (n5 & _ & G5' & X'). assert (n5 = nt4) by congruence. subst n5. exact X'. }
      unfold map_assign. rewrite (read_ok _ _ _ N1 G5). cbn [rbind]. rewrite (node_hash_ok fuel _ nt4 _ N5) by lia. cbn [rbind].
      rewrite (map_replace_new B (h5 q1) nt4 (trie [r])); auto.
      + intros e J. destruct (ki_ent _ _ _ _ (Kin q1) e J) as (? & _ & te & ? & ? & _). eauto.
      + intros e J X. apply (Dn e J).
        destruct (ki_ent _ _ _ _ (Kin q1) e J) as (Ne & Ge & te & Nte & _). destruct (ki_ent _ _ _ _ Mi e J) as (_ & Ge4 & te4 & Nte4 & _).
        assert (U5 : unf (h5 q1) (e_ptr e) (trie [r])) by (eapply unf_intro; eauto).
        assert (U4 : unf (h5 q1) (e_ptr e) te4).
        { eapply unf_frame with (P := Q) (h := h4).
          - intros y m d z J' Gy K. eapply (Cl q1); eauto. rewrite Same; auto.
          - intros; apply Same; auto.
          - right. right. apply in_map; auto.
          - eapply unf_intro; eauto. }
        rewrite <- (unf_det _ _ _ _ U4 U5). auto.
    - destruct (ki_ent _ _ _ _ Mi en Je) as (Nn & Ge & te & Nte & _).
      exists (e_ptr en), (w_minimized w4). split; [right; right; apply in_map; auto|]. split; [eapply unf_intro; eauto|].
      intros fuel Hf. cbn [minimize_loop w_unchecked w_minimized w_floating]. rewrite Efind by auto. cbn [rbind].
      rewrite (proj2 (N.eqb_neq _ _) Nn), Link. reflexivity. }
  destruct Last as (x & m & Qx & Ux & El).
  exists (h5 x), (Builder (Dawg root (wadd (d_size (b_dawg b)) 1)) (p0 ++ c :: r) (Some (Work [] m fl))), x, (Work [] m fl).
  cbn [b_dawg d_root d_size b_work w_floating]. split; [|split; [auto|split; [auto|split; [auto|auto]]]].
  exists B. intros fuel Hf. unfold continued. cbn [acts app].
  rewrite add_nonempty; [|cbn; auto|destruct p0; discriminate].
  2:{ destruct (str_ltb (p0 ++ c :: r) (b_prev b)) eqn:Es; [apply str_ltb_lex in Es; tauto|auto]. }
  cbn [init b_work b_dawg b_prev deref rbind]. rewrite Ep, (differ_common _ _ _ D), skipn_length_app. unfold minimize at 1. cbn [w_unchecked length minimize_loop Nat.sub rbind].
  fold root. cbn [push_suffix]. unfold new_node. fold q1 h1. cbn [w_unchecked w_minimized w_floating].
  cbn [app] in E2'. change (set_insert q1 []) with [q1]. cbn [top]. rewrite E2'. cbn [rbind]. rewrite E3. cbn [rbind].
  unfold finish. cbn [b_work deref rbind b_dawg b_prev]. unfold minimize. cbn [w_unchecked].
  rewrite app_length. cbn [length]. rewrite Nat.sub_0_r.
  rewrite <- M2. rewrite (minimize_below _ _ _ _ _ _ (E4 fuel Hf) [Trans c root q1] fl 1). rewrite S4. cbn [app]. rewrite El by auto. reflexivity.
Qed.

Section Over.
  Variables (h : heap) (root : ptr) (tr : tree) (c : char) (q : ptr) (r : str) (h' : heap) (x : ptr) (fl : list ptr).
  Hypothesis U : unf h root tr.
  Hypothesis P : path h root [c] q.
  Hypothesis V : over h root c q r h' x fl.

  Lemma over_known : forall y, reach h root y -> exists n, y <> null /\ hget h y = Some n /\ esorted (nedges n) /\ ~ In y fl.
  Proof.
    intros y R. destruct (unf_reach_alloc _ _ _ _ U R) as (N & n & G). exists n. split; [auto|split; [auto|split]].
    - destruct R as (w & R). destruct (GraftProofs.unf_solid _ _ _ U w y R) as (_ & m & G' & S). congruence.
    - intros J. apply (ov_fresh _ _ _ _ _ _ _ _ V) in J. destruct J as (_ & J & _). congruence.
  Qed.

  Lemma over_reach_q : reach h root q.
  Proof. exists [c]. auto. Qed.

  Lemma over_root_q : q <> root.
  Proof. intros E. rewrite E in P. apply (ReplaceProofs.unf_no_return _ _ _ _ U) in P. discriminate. Qed.

  Lemma over_back : forall u, path h q u q -> u = [].
  Proof.
    destruct (unf_reach _ _ _ over_reach_q _ U) as (t & Uq & _). intros u Pu. eapply ReplaceProofs.unf_no_return; eauto.
  Qed.

  Lemma over_not_root : forall y d w, path h root (d :: w) y -> y <> root.
  Proof. intros y d w Pu E. rewrite E in Pu. apply (ReplaceProofs.unf_no_return _ _ _ _ U) in Pu. discriminate. Qed.

  Lemma over_unread : read h' q = UB.
  Proof. unfold read. rewrite (ov_gone _ _ _ _ _ _ _ _ V). destruct (q =? null)%N; auto. Qed.

  Definition answer (m : heap) (y : ptr) (i : N) (w : str) : res bool :=
    do p <- contains_loop m y i w;
    if N.eqb p null then Ok false else do n <- read m p; Ok (nfin n).

  Lemma answer_null : forall m i w, answer m null i w = Ok false.
  Proof. intros m i [|d w]; reflexivity. Qed.

  Lemma answer_clear : forall w y i d v, path h root (d :: v) y ->
    (forall u u', w = u ++ u' -> ~ path h y u q) -> answer h' y i w = answer h y i w.
  Proof.
    induction w as [|e w IH]; intros y i d v Py Nq;
      (assert (Ny : y <> q) by (intros ->; apply (Nq [] _ eq_refl); constructor));
      (destruct (over_known y (ex_intro _ _ Py)) as (n & NN & G & So & Fl));
      (assert (G' : hget h' y = Some n) by (rewrite (ov_else _ _ _ _ _ _ _ _ V); eauto using over_not_root)).
    - unfold answer. cbn [contains_loop rbind]. rewrite (proj2 (N.eqb_neq _ _) NN), (read_ok _ _ _ NN G), (read_ok _ _ _ NN G'). auto.
    - unfold answer. cbn [contains_loop]. rewrite (proj2 (N.eqb_neq _ _) NN), (read_ok _ _ _ NN G), (read_ok _ _ _ NN G'). cbn [rbind].
      destruct (i =? 2147483647)%N; auto. unfold transition. destruct (edge_get (nedges n) e) as [z|] eqn:Ge.
      + apply edge_get_In in Ge. apply (IH z (i + 1)%N d (v ++ [e])).
        * change (d :: v ++ [e]) with ((d :: v) ++ [e]). eapply path_snoc; eauto.
        * intros u u' -> Pu. apply (Nq (e :: u) u' eq_refl). econstructor; eauto.
      + fold (answer h' null (i + 1) w). fold (answer h null (i + 1) w). rewrite !answer_null. auto.
  Qed.

  Lemma answer_gone : forall u w y i d v, path h root (d :: v) y -> path h y u q -> answer h' y i (u ++ w) = UB.
  Proof.
    induction u as [|e u IH]; intros w y i d v Py Pu.
    - inversion Pu; subst. cbn [app]. destruct (over_known q over_reach_q) as (n & NN & _). apply N.eqb_neq in NN.
      unfold answer. destruct w as [|e w]; cbn [contains_loop rbind]; rewrite NN, over_unread; auto.
    - inversion Pu as [|? n ? z ? ? G I P']; subst. cbn [app]. destruct (over_known y (ex_intro _ _ Py)) as (n' & NN & G2 & So & Fl).
      assert (n' = n) by congruence. subst n'.
      assert (Ny : y <> q) by (intros ->; apply over_back in Pu; discriminate).
      assert (G' : hget h' y = Some n) by (rewrite (ov_else _ _ _ _ _ _ _ _ V); eauto using over_not_root).
      unfold answer. cbn [contains_loop]. rewrite (proj2 (N.eqb_neq _ _) NN), (read_ok _ _ _ NN G'). cbn [rbind].
      destruct (i =? 2147483647)%N; auto. unfold transition. rewrite (edge_In_get _ _ _ _ So I).
      apply (IH w z (i + 1)%N d (v ++ [e])); auto. change (d :: v ++ [e]) with ((d :: v) ++ [e]). eapply path_snoc; eauto.
  Qed.

  Lemma over_at_root : exists n, root <> null /\ hget h root = Some n /\ esorted (nedges n) /\
    hget h' root = Some (Node (nfin n) (edge_set (nedges n) c x)).
  Proof.
    destruct (ov_root _ _ _ _ _ _ _ _ V) as (n & G & G'). exists n.
    destruct (over_known root (reach_refl _ _)) as (m & N & G2 & So & _). assert (m = n) by congruence. subst m. auto.
  Qed.

  (** Lookups. *)
  Lemma over_new_term : forall size w, (N.of_nat (length (c :: w)) <= 2147483647)%N ->
    contains h' (Dawg root size) (c :: w) = Ok (tin (trie [r]) w).
  Proof.
    intros size w L. destruct over_at_root as (n & N & G & So & G'). unfold contains. cbn [d_root contains_loop].
    rewrite (proj2 (N.eqb_neq _ _) N), (read_ok _ _ _ N G'). cbn [rbind N.eqb]. unfold transition. cbn [nedges].
    rewrite edge_get_set, ceqb_refl.
    cbn [length] in L. destruct (contains_loop_ok w h' x _ (0 + 1)%N (ov_tree _ _ _ _ _ _ _ _ V)) as (y & E & D); [lia|]. rewrite E. cbn [rbind].
    destruct D as [[-> F]|(t' & U' & F)].
    - rewrite F. auto.
    - destruct (unf_read _ _ _ U') as (m & R & _ & _ & _ & Fn).
      pose proof (unf_inv _ _ _ U') as (_ & NN & _). apply N.eqb_neq in NN. rewrite NN, R. cbn [rbind]. rewrite F, Fn. auto.
  Qed.

  Lemma over_old_term : forall size w, (forall v, w <> c :: v) ->
    (forall u u', w = u ++ u' -> ~ path h root u q) -> contains h' (Dawg root size) w = contains h (Dawg root size) w.
  Proof.
    intros size w Nc Nq. destruct over_at_root as (n & N & G & So & G'). unfold contains. cbn [d_root].
    destruct w as [|d w]; cbn [contains_loop rbind]; rewrite (proj2 (N.eqb_neq _ _) N), (read_ok _ _ _ N G), (read_ok _ _ _ N G'); cbn [rbind N.eqb nfin]; auto.
    unfold transition. cbn [nedges]. rewrite edge_get_set.
    destruct (ceqb_spec d c) as [[-> E]|[Nd E]]; [destruct (Nc w); auto|]. rewrite E.
    fold (answer h' (match edge_get (nedges n) d with Some q => q | None => null end) (0 + 1) w).
    fold (answer h (match edge_get (nedges n) d with Some q => q | None => null end) (0 + 1) w).
    destruct (edge_get (nedges n) d) as [z|] eqn:Ge; [|rewrite !answer_null; auto].
    apply edge_get_In in Ge. apply (answer_clear w z (0 + 1)%N d []).
    - econstructor; eauto. constructor.
    - intros u u' -> Pu. apply (Nq (d :: u) u' eq_refl). econstructor; eauto.
  Qed.

  Lemma over_lost_term : forall size u w, u <> [c] -> path h root u q -> contains h' (Dawg root size) (u ++ w) = UB.
  Proof.
    intros size u w Nu Pu. destruct over_at_root as (n & N & G & So & G'). unfold contains. cbn [d_root].
    destruct u as [|d u]; [inversion Pu; destruct over_root_q; auto|]. cbn [app contains_loop].
    rewrite (proj2 (N.eqb_neq _ _) N), (read_ok _ _ _ N G'). cbn [rbind N.eqb]. unfold transition. cbn [nedges]. rewrite edge_get_set.
    inversion Pu as [|? m ? z ? ? Gm I P']; subst. assert (m = n) by congruence. subst m. pose proof (edge_In_get _ _ _ _ So I) as Ge.
    destruct (ceqb_spec d c) as [[-> E]|[Nd E]].
    - exfalso. apply Nu. inversion P as [|? m ? y ? ? Gy Iy Py]; subst. inversion Py; subst. assert (m = n) by congruence. subst m.
      pose proof (edge_In_get _ _ _ _ So Iy) as Gy'. assert (z = q) by (unfold ptr in *; congruence). subst z. apply over_back in P'. congruence.
    - rewrite E, Ge. apply (answer_gone u w z (0 + 1)%N d []); auto. econstructor; eauto. constructor.
  Qed.

  (** Destruction. *)
  Lemma over_step : forall y m d z, reach h root y \/ reach h' x y -> hget h' y = Some m -> In (d, z) (nedges m) ->
    reach h root z \/ reach h' x z.
  Proof.
    intros y m d z [R|R] G I; [|right; eapply reach_step; eauto].
    destruct (over_known y R) as (n & NN & Gn & So & Fl).
    destruct (N.eq_dec y q) as [->|Nq]; [rewrite (ov_gone _ _ _ _ _ _ _ _ V) in G; discriminate|].
    destruct (N.eq_dec y root) as [->|Nr].
    - destruct over_at_root as (n' & _ & Gr & _ & Gr'). assert (n' = n) by congruence. subst n'. rewrite Gr' in G. injection G as <-. cbn [nedges] in I.
      apply edge_In_get in I; [|apply edge_set_sorted; auto]. rewrite edge_get_set in I.
      destruct (ceqb d c); [injection I as <-; right; apply reach_refl|]. left. apply edge_get_In in I. eapply reach_step; eauto.
    - rewrite (ov_else _ _ _ _ _ _ _ _ V) in G by auto. left. exact (reach_step _ _ _ _ _ _ R G I).
  Qed.

  Lemma over_nonnull : forall u y, path h' root u y -> y <> null.
  Proof.
    intros u y Pu. assert (X : reach h root y \/ reach h' x y).
    { eapply (closed_reach h' (fun y => reach h root y \/ reach h' x y)); [|left; apply reach_refl|exists u; exact Pu].
      intros a m d z J G I. eapply over_step; eauto. }
    destruct X as [X|X].
    - destruct (over_known y X) as (n & NN & _). auto.
    - apply (ov_new _ _ _ _ _ _ _ _ V) in X. apply (ov_fresh _ _ _ _ _ _ _ _ V) in X. tauto.
  Qed.

  Lemma over_path : forall u y d v, path h root (d :: v) y -> path h y u q -> path h' y u q.
  Proof.
    induction u as [|e u IH]; intros y d v Py Pu; [inversion Pu; constructor|].
    inversion Pu as [|? n ? z ? ? G I P']; subst. destruct (over_known y (ex_intro _ _ Py)) as (n' & NN & G2 & So & Fl).
    assert (n' = n) by congruence. subst n'.
    assert (Ny : y <> q) by (intros ->; apply over_back in Pu; discriminate).
    assert (G' : hget h' y = Some n) by (rewrite (ov_else _ _ _ _ _ _ _ _ V); eauto using over_not_root).
    econstructor; [exact G'|exact I|]. apply (IH z d (v ++ [e])); auto. change (d :: v ++ [e]) with ((d :: v) ++ [e]). eapply path_snoc; eauto.
  Qed.

  Lemma over_dangling : forall b w u, d_root (b_dawg b) = root -> b_work b = Some w -> u <> [c] -> path h root u q ->
    exists enough, forall fuel, enough <= fuel -> destroy fuel h' b = UB.
  Proof.
    intros b w u Er Ew Nu Pu.
    assert (Pq : path h' root u q).
    { clear Er. destruct u as [|d u]; [inversion Pu; destruct over_root_q; auto|].
      inversion Pu as [|? m ? z ? ? Gm I P']; subst. destruct over_at_root as (n & N & G & So & G'). assert (m = n) by congruence. subst m.
      pose proof (edge_In_get _ _ _ _ So I) as Ge.
      assert (Nd : d <> c).
      { intros ->. apply Nu. inversion P as [|? m ? y ? ? Gy Iy Py]; subst. inversion Py; subst. assert (m = n) by congruence. subst m.
        pose proof (edge_In_get _ _ _ _ So Iy) as Gy'. assert (z = q) by (unfold ptr in *; congruence). subst z. apply over_back in P'. congruence. }
      econstructor; [exact G'| |eapply over_path with (d := d) (v := []); eauto; econstructor; eauto; constructor].
      cbn [nedges]. apply edge_get_In. rewrite edge_get_set. destruct (ceqb_spec d c) as [[-> _]|[_ E]]; [congruence|]. rewrite E. auto. }
    destruct (ReplaceProofs.gone_loop h' q over_unread u root Pq over_nonnull [] [] []) as (N & E).
    exists N. intros fuel Hf. unfold destroy, clean_up. rewrite Ew. unfold all_nodes. rewrite Er. cbn [app] in E. rewrite E by auto. auto.
  Qed.

  (** No other way led to the node that is gone. *)
  Hypothesis Sole : forall u, path h root u q -> u = [c].

  Lemma over_frame : forall d z t, d <> c -> path h root [d] z -> unf h z t -> unf h' z t.
  Proof.
    intros d z t Nd Pz Uz. eapply unf_frame with (P := reach h z); eauto using reach_closed, reach_refl.
    intros y (w & Py). assert (Pr : path h root (d :: w) y) by (change (d :: w) with ([d] ++ w); eapply path_app; eauto).
    destruct (over_known y (ex_intro _ _ Pr)) as (n & NN & G & So & Fl).
    apply (ov_else _ _ _ _ _ _ _ _ V); eauto using over_not_root. intros ->. apply Sole in Pr. congruence.
  Qed.

  Lemma over_unf : exists t, unf h' root t.
  Proof.
    destruct over_at_root as (n & N & G & So & G').
    assert (X : exists ts, unfs h' (edge_set (nedges n) c x) ts).
    { assert (Y : forall es, (forall d z, In (d, z) es -> exists t, unf h' z t) -> exists ts, unfs h' es ts).
      { induction es as [|[d z] es IH]; intros H; [exists []; constructor|].
        destruct (H d z (or_introl eq_refl)) as (t & Ut). destruct IH as (ts & Uts); [intros; eapply H; right; eauto|].
        exists ((d, t) :: ts). constructor; auto. }
      apply Y. intros d z I. apply edge_In_get in I; [|apply edge_set_sorted; auto]. rewrite edge_get_set in I.
      destruct (ceqb_spec d c) as [[-> E]|[Nd E]]; rewrite E in I.
      - injection I as <-. eexists. apply V.
      - pose proof I as I'. apply edge_get_In in I'. assert (Pz : path h root [d] z) by (econstructor; eauto; constructor).
        destruct (unf_reach _ _ _ (ex_intro _ _ Pz) _ U) as (t & Uz & _). exists t. eapply over_frame; eauto. }
    destruct X as (ts & Us). exists (T (nfin n) ts). eapply unf_intro; [auto|exact G'|]. repeat split; cbn; auto. apply edge_set_sorted; auto.
  Qed.

  Lemma over_keeps : forall w y, path h root w y -> (forall v, w <> c :: v) -> path h' root w y.
  Proof.
    intros w y Pw Nc. destruct over_at_root as (n & N & G & So & G').
    destruct w as [|d w]; [inversion Pw; constructor|]. inversion Pw as [|? m ? z ? ? Gm I P']; subst. assert (m = n) by congruence. subst m.
    assert (Nd : d <> c) by (intros ->; apply (Nc w); auto). pose proof (edge_In_get _ _ _ _ So I) as Ge.
    econstructor; [exact G'| |].
    - cbn [nedges]. apply edge_get_In. rewrite edge_get_set. destruct (ceqb_spec d c) as [[-> _]|[_ E]]; [congruence|]. rewrite E. exact Ge.
    - assert (Pz : path h root [d] z) by (econstructor; eauto; constructor).
      assert (Fr : forall a, reach h z a -> hget h' a = hget h a).
      { intros a (v & Pa). assert (Pr : path h root (d :: v) a) by (econstructor; eauto).
        destruct (over_known a (ex_intro _ _ Pr)) as (na & NNa & Ga & _ & Fla).
        apply (ov_else _ _ _ _ _ _ _ _ V); eauto using over_not_root. intros ->. apply Sole in Pr. congruence. }
      clear - P' Fr. induction P' as [|a m e b w b' Ga Ia Pb IH]; [constructor|].
      econstructor; [rewrite Fr by apply reach_refl; exact Ga|exact Ia|]. apply IH. intros a' (v & R). apply Fr. exists (e :: v). econstructor; eauto.
  Qed.

  Lemma over_reached : forall y, reach h' root y -> (exists w, path h root w y /\ forall v, w <> c :: v) \/ In y fl.
  Proof.
    intros y R.
    assert (X : (exists w, path h root w y /\ forall v, w <> c :: v) \/ reach h' x y).
    { eapply (closed_reach h' (fun y => (exists w, path h root w y /\ forall v, w <> c :: v) \/ reach h' x y)); [| |exact R].
      - intros a m d z [(w & Pa & Nc)|J] Ga I; [|right; eapply reach_step; eauto].
        destruct (over_known a (ex_intro _ _ Pa)) as (n & NN & Gn & So & Fl).
        destruct w as [|e w].
        + inversion Pa; subst a. destruct over_at_root as (n' & _ & Gr & _ & Gr'). assert (n' = n) by congruence. subst n'.
          rewrite Gr' in Ga. injection Ga as <-. cbn [nedges] in I. apply edge_In_get in I; [|apply edge_set_sorted; auto]. rewrite edge_get_set in I.
          destruct (ceqb_spec d c) as [[-> E]|[Nd E]]; rewrite E in I; [injection I as <-; right; apply reach_refl|].
          left. exists [d]. apply edge_get_In in I. split; [econstructor; eauto; constructor|congruence].
        + assert (Na : a <> q) by (intros ->; apply Sole in Pa; apply (Nc []); auto).
          rewrite (ov_else _ _ _ _ _ _ _ _ V) in Ga by eauto using over_not_root. left. exists ((e :: w) ++ [d]).
          split; [exact (path_snoc _ _ _ _ _ _ _ Pa Ga I)|]. intros v E. injection E as -> _. apply (Nc w). auto.
      - left. exists []. split; [constructor|discriminate]. }
    destruct X as [X|X]; [auto|right; eapply ov_new; eauto].
  Qed.

  Lemma over_destroyed : forall b w, d_root (b_dawg b) = root -> b_work b = Some w -> w_floating w = fl ->
    exists h2, runs_to (fun fuel => destroy fuel h' b) h2 /\ hget h2 q = None /\
      (forall w y, path h root w y -> (forall v, w <> c :: v) -> hget h2 y = None) /\
      (forall y, y <> q -> (forall w, path h root w y -> exists v, w = c :: v) -> hget h2 y = hget h y).
  Proof.
    intros b w Er Ew Ef. destruct over_unf as (t & Ut).
    destruct (all_nodes_all h' (b_dawg b) t ltac:(rewrite Er; exact Ut)) as (nodes & E & ND & In0). rewrite Er in In0.
    set (fl' := filter (fun p => negb (set_mem p nodes)) fl).
    assert (If : forall p, In p fl' <-> In p fl /\ ~ reach h' root p).
    { intros p. unfold fl'. rewrite filter_In, <- In0. rewrite negb_true_iff, <- not_true_iff_false, set_mem_In. tauto. }
    destruct (delete_all_ok fl' h') as (h1 & Ed & D1 & D2).
    { apply NoDup_filter. apply V. }
    { intros p J. apply If in J. destruct J as [J _]. apply (ov_fresh _ _ _ _ _ _ _ _ V) in J. tauto. }
    assert (Same : forall p, reach h' root p -> hget h1 p = hget h' p) by (intros p R; apply D2; rewrite If; tauto).
    assert (U1 : unf h1 root t).
    { eapply unf_frame with (P := reach h' root); eauto using reach_closed, reach_refl. }
    assert (Re : forall p, reach h1 root p <-> reach h' root p) by (intros p; apply reach_frame; auto).
    destruct (destroy_dawg_all h1 (b_dawg b) t ltac:(rewrite Er; exact U1)) as (h2 & E2 & D3 & D4). rewrite Er in D3, D4.
    exists h2. split; [|split; [|split]].
    - exists (tsize t + 2). intros fuel Hf. unfold destroy, clean_up. rewrite Ew, E, Ef by auto. cbn [rbind]. fold fl'. rewrite Ed. cbn [rbind b_dawg]. auto.
    - destruct (in_dec N.eq_dec q nodes) as [J|J]; rewrite In0 in J.
      + apply D3, Re, J.
      + rewrite D4 by (rewrite Re; auto). rewrite D2; [apply V|]. rewrite If. intros [K _]. destruct (over_known q over_reach_q) as (? & _ & _ & _ & X). auto.
    - intros v y Py Nc. apply D3, Re. exists v. apply over_keeps; auto.
    - intros y Ny Nc.
      assert (Fl : In y fl -> hget h2 y = None).
      { intros J. destruct (in_dec N.eq_dec y nodes) as [K|K]; rewrite In0 in K; [apply D3, Re, K|].
        rewrite D4 by (rewrite Re; auto). apply D1, If. auto. }
      destruct (in_dec N.eq_dec y fl) as [J|J].
      + rewrite Fl by auto. apply (ov_fresh _ _ _ _ _ _ _ _ V) in J. symmetry. tauto.
      + assert (K : ~ reach h' root y).
        { intros K. apply over_reached in K. destruct K as [(v & Pv & Nv)|K]; [|auto]. destruct (Nc v Pv) as (v' & ->). apply (Nv v'). auto. }
        rewrite D4 by (rewrite Re; auto). rewrite D2 by (rewrite If; tauto). apply (ov_else _ _ _ _ _ _ _ _ V); auto.
        intros ->. apply K, reach_refl.
  Qed.
End Over.

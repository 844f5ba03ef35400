(** * Properties C24-C27: writing dictionaries to messages and reading them back. *)
From Coq Require Import Sorting.Sorted Sorting.Permutation.
From Verif Require Import Base Spec ModelTransducer ModelDawg ModelSerial ModelQuery SpecDawg SpecSerial SpecQuery
  TreeProofs HeapProofs IterProofs BuildProofs2 DawgProofs SerialProofs QueryProofs QueryFacts LimitProofs PropsDawg PropsQuery.
Local Open Scope nat_scope.

(** ** C24: what to_protobuf writes, from_protobuf restores. *)
Theorem C24_round_trip : forall alloc terms h d, allocator alloc -> dictionary terms h d ->
  exists m h' b, runs_to (fun fuel => to_protobuf fuel h d) m /\
    from_protobuf alloc h m = Ok (h', b) /\
    (forall p, allocated h p -> hget h' p = hget h p) /\
    runs_to (fun fuel => dawg_eq fuel h' d (b_dawg b)) true /\
    runs_to (fun fuel => dawg_eq fuel h' (b_dawg b) d) true /\
    d_size (b_dawg b) = d_size d.
Proof.
  intros alloc terms h d A D. destruct (dictionary_unf _ _ _ D) as (U & As & S).
  destruct (to_protobuf_all h d _ U) as (m & R & De).
  destruct (restored_copy alloc h d _ m h A U De) as (f & h' & E & C).
  exists m, h', (Builder (Dawg (f (d_root d)) (d_size d)) [] None). split; auto. split; auto.
  assert (Fr : forall p, allocated h p -> hget h' p = hget h p).
  { intros p Al. apply (cp_rest _ _ _ _ _ C). intros q Rq ->. apply Al. apply (cp_fresh _ _ _ _ _ C); auto. }
  split; auto. cbn [b_dawg d_size].
  assert (U1 : unf h' (d_root d) (trie terms)).
  { eapply unf_frame with (P := reach h (d_root d)); eauto using reach_closed, reach_refl.
    intros q Rq. apply Fr. destruct (unf_reach_alloc _ _ _ _ U Rq) as (_ & n & G). unfold allocated. congruence. }
  assert (U2 : unf h' (f (d_root d)) (trie terms)) by (eapply copy_unf; eauto using reach_refl).
  split; [|split; auto].
  - destruct (dawg_eq_ok h' d (Dawg (f (d_root d)) (d_size d)) _ _ U1 U2) as (r & Rr & I).
    assert (r = true) as <- by (apply I; auto). auto.
  - destruct (dawg_eq_ok h' (Dawg (f (d_root d)) (d_size d)) d _ _ U2 U1) as (r & Rr & I).
    assert (r = true) as <- by (apply I; auto). auto.
Qed.
Print Assumptions C24_round_trip.

Definition example_message : message := Eval vm_compute in
  match to_protobuf 10 example_heap example_dawg with Ok m => m | _ => empty_message end.

Example C24_case : to_protobuf 10 example_heap example_dawg = Ok example_message /\
  length (m_nodes example_message) = 5 /\ length (m_finals example_message) = 2 /\
  length (m_edges example_message) = 6 /\
  exists h' b, from_protobuf bump example_heap example_message = Ok (h', b) /\
    dawg_eq 10 h' example_dawg (b_dawg b) = Ok true.
Proof. run. run. run. run. eexists _, _. run. vm_compute. reflexivity. Qed.

(** ** C25: the restored dictionary behaves like the original, also in another
    process. *)
Theorem C25_restored : forall alloc terms h d m h1 h2 b, allocator alloc -> dictionary terms h d ->
  runs_to (fun fuel => to_protobuf fuel h d) m -> from_protobuf alloc h1 m = Ok (h2, b) ->
  (forall w, contains h2 (b_dawg b) w = contains h d w) /\
  (forall listed, runs_to (fun fuel => iterate fuel h d) listed <->
     runs_to (fun fuel => iterate fuel h2 (b_dawg b)) listed) /\
  (forall R (rt : result_type R) alg q n results, within_limits terms q n ->
     (yields rt alg h d q n results <-> yields rt alg h2 (b_dawg b) q n results)) /\
  (exists nodes nodes', NoDup nodes /\ NoDup nodes' /\ length nodes = length nodes' /\
     (forall p, In p nodes <-> reach h (d_root d) p) /\
     (forall p, In p nodes' <-> reach h2 (d_root (b_dawg b)) p)) /\
  (exists h3, runs_to (fun fuel => destroy fuel h2 b) h3 /\ same_heap h3 h1).
Proof.
  intros alloc terms h d m h1 h2 b A D R E. pose proof (dictionary_restored _ _ _ _ _ _ _ _ D R A E) as D2.
  destruct (dictionary_unf _ _ _ D) as (U & As & S). destruct (dictionary_unf _ _ _ D2) as (U2 & _ & S2).
  pose proof (written h d m _ U R) as De.
  destruct (restored_copy alloc h d _ m h1 A U De) as (f & h' & E' & C).
  rewrite E' in E. injection E as <- <-. cbn [b_dawg d_root d_size] in *.
  split; [|split; [|split; [|split]]].
  - intros w. rewrite (contains_look _ _ _ w U). rewrite (contains_look h' (Dawg (f (d_root d)) (d_size d)) _ w U2). auto.
  - assert (Lw : (d_size d < W)%N) by (rewrite S; apply N.mod_lt; discriminate).
    assert (It : forall h d', unf h (d_root d') (trie terms) -> d_size d' = d_size d ->
      runs_to (fun fuel => iterate fuel h d') (emitted (N.to_nat (d_size d)) (next_value [] (words (trie terms))) (tl (words (trie terms))))).
    { intros h0 d' U' S'. exists (tsize (trie terms) + N.to_nat (d_size d) + 2). intros fuel Hf.
      apply iterate_ok; auto; try lia; rewrite S'; auto; try lia. }
    pose proof (It h d U eq_refl) as I1. pose proof (It h' (Dawg (f (d_root d)) (d_size d)) U2 eq_refl) as I2.
    intros l. split; intros Rl.
    + rewrite (runs_to_det _ _ _ _ Rl I1). exact I2.
    + rewrite (runs_to_det _ _ _ _ Rl I2). exact I1.
  - intros Rt rt alg q n results L. split; intros Y.
    + rewrite (yields_det _ _ _ _ _ _ _ _ _ Y (query_all_main _ rt alg terms h d q n D L)).
      apply (query_all_main _ rt alg terms); auto.
    + rewrite (yields_det _ _ _ _ _ _ _ _ _ Y (query_all_main _ rt alg terms _ _ q n D2 L)).
      apply (query_all_main _ rt alg terms); auto.
  - exists (m_nodes m), (map f (m_nodes m)).
    pose proof (ds_nodes _ _ _ De) as Nd. pose proof (ds_nodup _ _ _ De) as ND.
    split; [auto|]. split; [|split; [symmetry; apply map_length|split; auto]].
    + assert (Inj : forall i j, In i (m_nodes m) -> In j (m_nodes m) -> f i = f j -> i = j).
      { intros i j I J. apply (cp_inj _ _ _ _ _ C); apply Nd; auto. }
      clear - ND Inj. induction ND as [|i l NI ND IH]; cbn; constructor.
      * intros I. apply in_map_iff in I. destruct I as (j & X & J). apply NI.
        rewrite (Inj i j); auto; [left; auto | right; auto].
      * apply IH. intros; apply Inj; auto; right; auto.
    + intros x. rewrite in_map_iff, (copy_reach _ _ _ _ _ _ C U). split.
      * intros (p & <- & I). exists p. split; auto. apply Nd; auto.
      * intros (p & Rp & ->). exists p. split; auto. apply Nd; auto.
  - eapply cleaned_destroy_ok; cbn; auto.
    + exact U2.
    + intros x Rx. apply (copy_reach _ _ _ _ _ _ C U) in Rx. destruct Rx as (p & Rp & ->). apply (cp_fresh _ _ _ _ _ C); auto.
    + intros x Nx. apply (cp_rest _ _ _ _ _ C). intros p Rp ->. apply Nx. apply (copy_reach _ _ _ _ _ _ C U). eauto.
Qed.
Print Assumptions C25_restored.

Example C25_case : exists h2 b, from_protobuf bump [] example_message = Ok (h2, b) /\
  iterate 20 h2 (b_dawg b) = Ok [sa; sab; scb; scab] /\
  contains h2 (b_dawg b) scab = Ok true /\ contains h2 (b_dawg b) cat = Ok false /\
  query_all as_candidate 40 h2 (new_transducer STANDARD (d_root (b_dawg b))) cat 1 = Ok [(scab, 1%N)] /\
  rbind (destroy 20 h2 b) (fun h => Ok (live h)) = Ok [].
Proof. eexists _, _. run. run. run. run. run. vm_compute. reflexivity. Qed.

(** ** C26: all labels survive. *)
Theorem C26_labels : forall c, (label_to_msg c < 2 ^ 32)%N /\ label_of_msg (label_to_msg c) = c.
Proof. intros c. split; [|apply label_round]. destruct c as [[] [] [] [] [] [] [] []]; reflexivity. Qed.
Print Assumptions C26_labels.

(** The bytes 0x80-0xFF become large numbers in the message. *)
Example C26_case : label_to_msg (ascii_of_N 255) = 4294967295%N /\ label_of_msg 4294967295 = ascii_of_N 255.
Proof. split; vm_compute; reflexivity. Qed.

(** ** C27: messages from elsewhere. *)

(** Every well-formed message is read without undefined behaviour; the result
    accepts what the message says. *)
Theorem C27_well_formed : forall alloc h m, allocator alloc -> well_formed m ->
  exists h' b, from_protobuf alloc h m = Ok (h', b) /\
    (forall p, allocated h p -> hget h' p = hget h p) /\
    d_size (b_dawg b) = m_size m /\
    forall w, accepts_from h' (d_root (b_dawg b)) w <->
      exists j, leads (m_edges m) (m_root m) w j /\ In j (m_finals m).
Proof.
  intros alloc h m A Wf. destruct (from_protobuf_ok alloc h m A Wf) as (f & h' & E & L).
  eexists _, _. split; [exact E|]. cbn [b_dawg d_root d_size]. split; [|split; [auto|]].
  - intros p Al. apply (lo_rest _ _ _ _ _ _ L). intros i I ->. apply Al. apply (lo_fresh _ _ _ _ _ _ L); auto.
  - pose proof (wf_root _ Wf) as I. revert I. generalize (m_root m). intros i I w. revert i I.
    induction w as [|c w IH]; intros i I.
    + destruct (lo_node _ _ _ _ _ _ L i I) as (n & G & Fn & _). split.
      * intros (q & n' & Pa & G' & F'). inversion Pa; subst. exists i. split; [constructor|].
        rewrite G in G'. injection G' as <-. apply set_mem_In. congruence.
      * intros (j & St & J). inversion St; subst. apply set_mem_In in J. exists (f j), n.
        split; [constructor|]. split; auto. congruence.
    + destruct (lo_node _ _ _ _ _ _ L i I) as (n & G & Fn & So & Ed). split.
      * intros (q & n' & Pa & G' & F'). inversion Pa as [|? n0 ? r ? ? G0 I0 Pa']; subst.
        rewrite G in G0. injection G0 as <-. apply (edge_In_get _ _ _ _ So) in I0. apply Ed in I0.
        destruct I0 as (e & Ie & Es & El & Et). subst r.
        destruct (proj1 (IH (em_target e) (wf_target _ Wf _ Ie))) as (j & St & J).
        { exists q, n'. auto. }
        exists j. split; auto. rewrite <- Es, <- El. constructor; auto.
      * intros (j & St & J). inversion St as [|e w' j' Ie St']; subst.
        destruct (proj2 (IH (em_target e) (wf_target _ Wf _ Ie)) (ex_intro _ j (conj St' J))) as (q & n' & Pa & G' & F').
        exists q, n'. split; auto. econstructor; eauto. apply edge_get_In. apply Ed. exists e. auto.
Qed.
Print Assumptions C27_well_formed.

Example C27_case : well_formed example_message.
Proof.
  destruct (dictionary_unf _ _ _ example_dictionary) as (U & _).
  assert (R : to_protobuf 10 example_heap example_dawg = Ok example_message) by (vm_compute; reflexivity).
  destruct (to_protobuf_ok 10 example_heap example_dawg _ U) as (m & E & D).
  { vm_compute. lia. }
  rewrite R in E. injection E as ->. eapply describes_well_formed; eauto.
Qed.

(** An edge from a node that is not listed is undefined behaviour, whatever the
    rest of the message. *)
Theorem C27_unknown_source : forall alloc h m e, allocator alloc ->
  In e (m_edges m) -> ~ In (em_source e) (m_nodes m) -> from_protobuf alloc h m = UB.
Proof.
  intros alloc h m e A I NI. unfold from_protobuf.
  assert (Mk : forall ids h nodes h' nodes', make_nodes alloc h (m_finals m) ids nodes = (h', nodes') ->
    find_node nodes (em_source e) = None -> ~ In (em_source e) ids -> find_node nodes' (em_source e) = None).
  { clear. induction ids as [|i ids IH]; intros h nodes h' nodes' E F NI; cbn in *.
    - congruence.
    - destruct (find_node nodes i).
      + eapply IH; eauto.
      + eapply IH; eauto. cbn. destruct (N.eqb_spec (em_source e) i); auto. subst. tauto. }
  destruct (make_nodes alloc h (m_finals m) (m_nodes m) []) as [h1 nodes] eqn:E.
  pose proof (Mk _ _ _ _ _ E eq_refl NI) as Fn.
  assert (Lk : link_edges h1 nodes (m_edges m) = UB).
  { assert (Ae : forall h p c q, add_edge h p c q <> OOF).
    { intros h0 p c q. unfold add_edge, read, delete. destruct (p =? null)%N; cbn; [discriminate|].
      destruct (hget h0 p) as [n|]; cbn; [|discriminate].
      destruct (transition n c =? null)%N; cbn.
      - destruct (hget h0 p); cbn; discriminate.
      - destruct (hget h0 (transition n c)); cbn; [|discriminate].
        destruct (hget (hdel h0 (transition n c)) p); cbn; discriminate. }
    clear E. revert h1 I. generalize (m_edges m). induction l as [|e' l IH]; intros h1 I; [destruct I|].
    cbn [link_edges]. destruct I as [->|I].
    - unfold node_at at 1. rewrite Fn. reflexivity.
    - pose proof (Ae h1 (node_at nodes (em_source e')) (label_of_msg (em_label e')) (node_at nodes (em_target e'))) as X.
      destruct (add_edge h1 (node_at nodes (em_source e')) (label_of_msg (em_label e')) (node_at nodes (em_target e'))); cbn; auto; try tauto.
    }
  rewrite Lk. reflexivity.
Qed.
Print Assumptions C27_unknown_source.

(** The empty message yields a dictionary whose root is null; looking up a
    non-empty term still works, but the empty term, iteration, comparison and
    destruction are undefined. *)
Theorem C27_empty : forall alloc h,
  exists b, from_protobuf alloc h empty_message = Ok (h, b) /\
    (forall w, contains h (b_dawg b) w = Ok false) /\
    runs_into_ub (fun fuel => dawg_begin fuel h (b_dawg b)) /\
    (forall d, d_size d = 0%N -> runs_into_ub (fun fuel => dawg_eq fuel h (b_dawg b) d)) /\
    runs_into_ub (fun fuel => destroy fuel h b).
Proof.
  intros alloc h. eexists. split; [reflexivity|]. cbn [b_dawg].
  split; [intros [|c w]; reflexivity|].
  split; [exists 1; intros [|fuel] H; [lia|reflexivity]|].
  split; [|exists 1; intros [|fuel] H; [lia|reflexivity]].
  intros d E. exists 0. intros fuel _. unfold dawg_eq. cbn [d_size]. rewrite E. reflexivity.
Qed.
Print Assumptions C27_empty.

(** Two edges with the same source and label: adding the second deletes the
    first target, although other edges may still lead there; here destruction
    then touches freed memory. *)
Theorem C27_repeated_edge : forall alloc, allocator alloc -> exists m,
  (forall e, In e (m_edges m) -> In (em_source e) (m_nodes m) /\ In (em_target e) (m_nodes m)) /\
  exists h b, from_protobuf alloc [] m = Ok (h, b) /\ runs_into_ub (fun fuel => destroy fuel h b).
Proof.
  intros alloc A.
  exists (Message [1; 2]%N [] [EdgeMsg 1 97 2; EdgeMsg 1 97 2] 1 0).
  split. { cbn. intros e [<-|[<-|[]]]; cbn; auto. }
  unfold from_protobuf. cbn [m_nodes m_finals m_edges m_root m_size make_nodes find_node new_node].
  destruct (A []) as [Na _]. set (p := alloc []) in *.
  set (h1 := hset [] p (Node (set_mem 1%N []) [])).
  change (2 =? 1)%N with false. cbn [find_node]. destruct (A h1) as [Nb Fb]. set (q := alloc h1) in *.
  assert (Npq : q <> p). { intros X. rewrite X in Fb. unfold h1 in Fb. rewrite hget_hset_same in Fb. discriminate. }
  set (h2 := hset h1 q (Node (set_mem 2%N []) [])).
  cbv beta iota zeta. cbn [link_edges em_source em_label em_target].
  assert (Ap : node_at [(2%N, q); (1%N, p)] 1 = p) by reflexivity.
  assert (Aq : node_at [(2%N, q); (1%N, p)] 2 = q) by reflexivity.
  change (hset [] p (Node (set_mem 1%N []) [])) with h1. change (alloc h1) with q.
  change (hset h1 q (Node (set_mem 2%N []) [])) with h2. rewrite Ap, Aq. change (label_of_msg 97) with "a"%char.
  assert (G2 : hget h2 p = Some (Node false [])).
  { unfold h2. rewrite hget_hset_other by auto. unfold h1. rewrite hget_hset_same. reflexivity. }
  unfold add_edge at 1. rewrite (read_ok _ _ _ Na G2). cbn [rbind]. unfold transition. cbn [nedges edge_get].
  change (delete h2 null) with (Ok h2 : res heap). cbn [rbind]. rewrite (read_ok _ _ _ Na G2). cbn [rbind nfin nedges edge_set].
  set (h3 := hset h2 p (Node false [("a"%char, q)])).
  assert (G3 : hget h3 p = Some (Node false [("a"%char, q)])) by apply hget_hset_same.
  assert (G3q : hget h3 q = Some (Node false [])).
  { unfold h3. rewrite hget_hset_other by auto. unfold h2. rewrite hget_hset_same. reflexivity. }
  unfold add_edge. rewrite (read_ok _ _ _ Na G3). cbn [rbind]. unfold transition. cbn [nedges edge_get].
  change (ceqb "a" "a") with true. cbn [rbind]. unfold delete.
  destruct (N.eqb_spec q null); [congruence|]. rewrite G3q. cbn [rbind].
  assert (G4 : hget (hdel h3 q) p = Some (Node false [("a"%char, q)])).
  { rewrite hget_hdel. destruct (N.eqb_spec p q); [congruence|]. auto. }
  rewrite (read_ok _ _ _ Na G4). cbn [rbind nfin nedges edge_set]. change (ceqb "a" "a") with true.
  eexists _, _. split; [reflexivity|].
  exists 2. intros [|[|fuel]] H; try lia.
  unfold destroy, clean_up. cbn [b_work rbind b_dawg]. unfold destroy_dawg, all_nodes. cbn [d_root all_nodes_loop].
  rewrite (read_ok _ _ (Node false [("a"%char, q)]) Na) by apply hget_hset_same.
  cbn [rbind nedges map snd app]. cbn [all_nodes_loop].
  unfold read at 1. destruct (N.eqb_spec q null); [congruence|].
  rewrite hget_hset_other by auto. rewrite hget_hdel, N.eqb_refl. reflexivity.
Qed.
Print Assumptions C27_repeated_edge.

(** A cyclic message is read, but the result cannot be destroyed: the traversal
    never ends. *)
Theorem C27_cycle : forall alloc, allocator alloc -> exists m, well_formed m /\
  exists h b, from_protobuf alloc [] m = Ok (h, b) /\ forall fuel, destroy fuel h b = OOF.
Proof.
  intros alloc A. exists (Message [1]%N [] [EdgeMsg 1 97 1] 1 0). split.
  { constructor; cbn; auto; try (intros e [<-|[]]; cbn; auto). repeat constructor. intros []. }
  unfold from_protobuf. cbn [m_nodes m_finals m_edges m_root m_size make_nodes find_node new_node].
  destruct (A []) as [Na _]. set (p := alloc []) in *.
  set (h1 := hset [] p (Node (set_mem 1%N []) [])).
  cbv beta iota zeta. cbn [link_edges em_source em_label em_target].
  assert (Ap : node_at [(1%N, p)] 1 = p) by reflexivity.
  change (hset [] p (Node (set_mem 1%N []) [])) with h1. rewrite Ap. change (label_of_msg 97) with "a"%char.
  assert (G : hget h1 p = Some (Node false [])) by apply hget_hset_same.
  unfold add_edge. rewrite (read_ok _ _ _ Na G). cbn [rbind]. unfold transition. cbn [nedges edge_get].
  change (delete h1 null) with (Ok h1 : res heap). cbn [rbind]. rewrite (read_ok _ _ _ Na G). cbn [rbind nfin nedges edge_set].
  eexists _, _. split; [reflexivity|]. intros fuel.
  unfold destroy, clean_up. cbn [b_work rbind b_dawg]. unfold destroy_dawg, all_nodes. cbn [d_root].
  assert (X : forall fuel nodes, all_nodes_loop fuel (hset h1 p (Node false [("a"%char, p)])) [p] nodes = OOF).
  { induction fuel0 as [|k IH]; intros nodes; [reflexivity|]. cbn [all_nodes_loop].
    rewrite (read_ok _ _ (Node false [("a"%char, p)]) Na) by apply hget_hset_same. cbn [rbind nedges map snd app]. apply IH. }
  rewrite X. reflexivity.
Qed.
Print Assumptions C27_cycle.

(** ** C48: dictionaries that were returned are closed: sorted_dawg has deleted
    the work containers and from_protobuf never makes them, so adding a further
    term dereferences a null pointer. *)
Theorem C48_after_sorted_dawg : forall alloc h0 terms h b fuel term, allocator alloc ->
  runs_to (fun fuel => sorted_dawg fuel alloc h0 terms) (h, Some b) ->
  (lex_lt term (last terms []) -> add fuel alloc h b term = Ok (false, h, b)) /\
  (~ lex_lt term (last terms []) -> term <> [] -> add fuel alloc h b term = UB).
Proof.
  intros alloc h0 ts h b fuel term A R. pose proof (sorted_dawg_prev _ _ _ _ _ A R) as P.
  apply sorted_dawg_built in R; auto. destruct R as (_ & _ & Wk).
  unfold add. rewrite P. split.
  - intros L. apply str_ltb_lex in L. rewrite L. auto.
  - intros L NE. destruct (str_ltb term (last ts [])) eqn:E; [apply str_ltb_lex in E; tauto|].
    destruct term; [congruence|]. rewrite Wk. reflexivity.
Qed.
Print Assumptions C48_after_sorted_dawg.

Theorem C48_after_from_protobuf : forall alloc h m h1 b fuel term,
  from_protobuf alloc h m = Ok (h1, b) -> term <> [] -> add fuel alloc h1 b term = UB.
Proof.
  intros alloc h m h1 b fuel term E NE. unfold from_protobuf in E.
  destruct (make_nodes alloc h (m_finals m) (m_nodes m) []) as [h0 nodes].
  destruct (link_edges h0 nodes (m_edges m)) as [h2| |]; cbn in E; try discriminate. injection E as <- <-.
  destruct term; [congruence|]. reflexivity.
Qed.
Print Assumptions C48_after_from_protobuf.

Example C48_case : exists h b, sorted_dawg 20 bump [] some_terms = Ok (h, Some b) /\
  add 20 bump h b sa = Ok (false, h, b) /\ add 20 bump h b (lit "d") = UB /\
  exists h2 b2, from_protobuf bump [] example_message = Ok (h2, b2) /\ add 20 bump h2 b2 sa = UB.
Proof. eexists _, _. run. run. run. eexists _, _. run. vm_compute. reflexivity. Qed.

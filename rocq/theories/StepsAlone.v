(** * StepsAlone: a program that runs alone does what the function of ModelDawg does. *)
From Verif Require Import Base Spec ModelHash ModelTransducer ModelDawg ModelQuery ModelSerial ModelSteps.

Section Alone.
  Variable alloc : heap -> ptr.

  Lemma alone_andthen {A B} (p : action A) (f : A -> action B) : forall h,
    alone alloc (andthen p f) h = (do (h1, x) <- alone alloc p h; alone alloc (f x) h1).
  Proof.
    induction p as [x| | |a k IH|a n k IH|n k IH|a k IH]; intros h; cbn [andthen alone]; try reflexivity.
    - destruct (there h a); cbn; auto.
    - destruct (there h a); cbn; auto.
    - apply IH.
    - destruct (there h a); cbn; auto.
  Qed.

  Lemma read_there h p : read h p = match there h p with Some n => Ok n | None => UB end.
  Proof. unfold read, there. destruct (N.eqb p null); [reflexivity|]. now destruct (hget h p). Qed.
  Lemma there_read {B} h p (f : node -> res B) : done_or (there h p) f = (do n <- read h p; f n).
  Proof. rewrite read_there. now destruct (there h p). Qed.

  (** A program that does not change memory; one that does. *)
  Definition looks {A} (p : action A) (f : heap -> res A) : Prop :=
    forall h, alone alloc p h = (do x <- f h; Ok (h, x)).
  Definition changes {A} (p : action A) (f : heap -> res (heap * A)) : Prop := forall h, alone alloc p h = f h.

  Lemma delete_alone p : changes (s_delete p) (fun h => do h1 <- delete h p; Ok (h1, tt)).
  Proof.
    intros h. unfold s_delete, delete. destruct (N.eqb p null) eqn:E; [reflexivity|]. cbn [alone].
    unfold there. rewrite E. destruct (hget h p); reflexivity.
  Qed.
  Lemma set_final_alone p b : changes (s_set_final p b) (fun h => do h1 <- set_final h p b; Ok (h1, tt)).
  Proof.
    intros h. unfold s_set_final, set_final. cbn [alone]. rewrite there_read, read_there.
    destruct (there h p) as [n|] eqn:E; reflexivity.
  Qed.
  Lemma add_edge_alone p c q : changes (s_add_edge p c q) (fun h => do h1 <- add_edge h p c q; Ok (h1, tt)).
  Proof.
    intros h. unfold s_add_edge, add_edge. cbn [alone]. rewrite there_read.
    destruct (read h p) as [n| |]; cbn [rbind]; try reflexivity.
    rewrite alone_andthen, delete_alone. destruct (delete h (transition n c)) as [h1| |]; cbn [rbind]; try reflexivity.
    cbn [alone]. rewrite there_read, read_there. destruct (there h1 p) as [n1|]; reflexivity.
  Qed.

  Lemma node_eq_alone : forall fuel a b, looks (s_node_eq fuel a b) (fun h => node_eq fuel h a b).
  Proof.
    induction fuel as [|fuel IH]; intros a b h; [reflexivity|]. cbn [s_node_eq node_eq].
    destruct (negb (Bool.eqb (nfin a) (nfin b))); [reflexivity|].
    destruct (negb (Nat.eqb (length (nedges a)) (length (nedges b)))); [reflexivity|].
    induction (nedges a) as [|[c x] es IHes]; [reflexivity|]. cbv zeta.
    destruct (N.eqb (transition b c) null); [reflexivity|]. cbn [alone]. rewrite there_read.
    destruct (read h x) as [n| |]; cbn [rbind]; try reflexivity. rewrite there_read.
    destruct (read h (transition b c)) as [m| |]; cbn [rbind]; try reflexivity.
    rewrite alone_andthen, IH. destruct (node_eq fuel h n m) as [[]| |]; cbn [rbind]; try reflexivity. exact IHes.
  Qed.
  Lemma node_hash_alone : forall fuel n, looks (s_node_hash fuel n) (fun h => node_hash fuel h n).
  Proof.
    induction fuel as [|fuel IH]; intros n h; [reflexivity|]. cbn [s_node_hash node_hash].
    rewrite alone_andthen. generalize DEADBEEF. induction (nedges n) as [|[c x] es IHes]; intros code; [reflexivity|].
    cbv zeta. cbn [alone]. rewrite there_read.
    destruct (read h x) as [m| |]; cbn [rbind]; try reflexivity.
    rewrite alone_andthen, IH. destruct (node_hash fuel h m) as [k| |]; cbn [rbind]; try reflexivity. apply IHes.
  Qed.

  Lemma all_nodes_loop_alone : forall fuel ps ns,
    looks (s_all_nodes_loop fuel ps ns) (fun h => all_nodes_loop fuel h ps ns).
  Proof.
    induction fuel as [|fuel IH]; intros [|p ps] ns h; cbn [s_all_nodes_loop all_nodes_loop alone]; try reflexivity.
    rewrite there_read. destruct (read h p); cbn [rbind]; try reflexivity. apply IH.
  Qed.
  Lemma all_nodes_alone fuel d : looks (s_all_nodes fuel d) (fun h => all_nodes fuel h d).
  Proof. apply all_nodes_loop_alone. Qed.
  Lemma delete_all_alone : forall ps, changes (s_delete_all ps) (fun h => do h1 <- delete_all h ps; Ok (h1, tt)).
  Proof.
    induction ps as [|p ps IH]; intros h; [reflexivity|]. cbn [s_delete_all delete_all].
    rewrite alone_andthen, delete_alone. destruct (delete h p); cbn [rbind]; try reflexivity. apply IH.
  Qed.
  Lemma destroy_dawg_alone fuel d :
    changes (s_destroy_dawg fuel d) (fun h => do h1 <- destroy_dawg fuel h d; Ok (h1, tt)).
  Proof.
    intros h. unfold s_destroy_dawg, destroy_dawg. rewrite alone_andthen, all_nodes_alone.
    destruct (all_nodes fuel h d); cbn [rbind]; try reflexivity. apply delete_all_alone.
  Qed.

  Lemma contains_loop_alone : forall term p i,
    looks (s_contains_loop p i term) (fun h => contains_loop h p i term).
  Proof.
    induction term as [|c term IH]; intros p i h; [reflexivity|]. cbn [s_contains_loop contains_loop].
    destruct (N.eqb p null); [reflexivity|]. cbn [alone]. rewrite there_read.
    destruct (read h p); cbn [rbind]; try reflexivity. destruct (i =? 2147483647)%N; [reflexivity|]. apply IH.
  Qed.
  Lemma contains_alone d term : looks (s_contains d term) (fun h => contains h d term).
  Proof.
    intros h. unfold s_contains, contains. rewrite alone_andthen, contains_loop_alone.
    destruct (contains_loop h (d_root d) 0 term) as [p| |]; cbn [rbind]; try reflexivity.
    destruct (N.eqb p null); [reflexivity|]. cbn [alone]. rewrite there_read. destruct (read h p); reflexivity.
  Qed.
  Lemma dawg_eq_alone fuel d e : looks (s_dawg_eq fuel d e) (fun h => dawg_eq fuel h d e).
  Proof.
    intros h. unfold s_dawg_eq, dawg_eq. destruct (negb (N.eqb (d_size d) (d_size e))); [reflexivity|].
    cbn [alone]. rewrite there_read. destruct (read h (d_root d)) as [n| |]; cbn [rbind]; try reflexivity.
    rewrite there_read. destruct (read h (d_root e)) as [m| |]; cbn [rbind]; try reflexivity. apply node_eq_alone.
  Qed.
  Lemma dawg_hash_alone fuel d : looks (s_dawg_hash fuel d) (fun h => dawg_hash fuel h d).
  Proof.
    intros h. unfold s_dawg_hash, dawg_hash. cbv zeta. cbn [alone]. rewrite there_read.
    destruct (read h (d_root d)) as [n| |]; cbn [rbind]; try reflexivity.
    rewrite alone_andthen, node_hash_alone. destruct (node_hash fuel h n); reflexivity.
  Qed.

  Lemma advance_loop_alone : forall fuel ps, looks (s_advance_loop fuel ps) (fun h => advance_loop fuel h ps).
  Proof.
    induction fuel as [|fuel IH]; intros [|p ps] h; cbn [s_advance_loop advance_loop]; try reflexivity.
    cbn [alone]. rewrite there_read. destruct (read h (prefix_node p)) as [n| |]; cbn [rbind]; try reflexivity.
    cbv zeta. destruct (nfin n); [reflexivity|].
    destruct (ps ++ _) as [|q qs]; [reflexivity|]. apply IH.
  Qed.
  Lemma advance_alone fuel it : looks (s_advance fuel it) (fun h => advance fuel h it).
  Proof.
    intros h. unfold s_advance, advance. destruct (it_pending it) as [|p ps]; [reflexivity|].
    rewrite alone_andthen, advance_loop_alone. destruct (advance_loop fuel h (p :: ps)) as [[[r q] n]| |]; reflexivity.
  Qed.
  Lemma iter_next_alone fuel it : looks (s_iter_next fuel it) (fun h => iter_next fuel h it).
  Proof.
    intros h. unfold s_iter_next, iter_next. rewrite alone_andthen, advance_alone.
    destruct (advance fuel h it); reflexivity.
  Qed.
  Lemma iterate_loop_alone fuel last : forall k it,
    looks (s_iterate_loop k fuel last it) (fun h => iterate_loop k fuel h last it).
  Proof.
    induction k as [|k IH]; intros it h; [reflexivity|]. cbn [s_iterate_loop iterate_loop].
    destruct (N.eqb (it_index it) last); [reflexivity|]. rewrite alone_andthen, iter_next_alone.
    destruct (iter_next fuel h it) as [it'| |]; cbn [rbind]; try reflexivity.
    rewrite alone_andthen, IH. destruct (iterate_loop k fuel h last it'); reflexivity.
  Qed.
  Lemma iterate_alone fuel d : looks (s_iterate fuel d) (fun h => iterate fuel h d).
  Proof.
    intros h. unfold s_iterate, iterate, s_dawg_begin, dawg_begin. rewrite alone_andthen, advance_alone.
    destruct (advance fuel h _) as [it| |]; cbn [rbind]; try reflexivity. apply iterate_loop_alone.
  Qed.

  Lemma map_find_alone fuel code key : forall m,
    looks (s_map_find fuel code key m) (fun h => map_find fuel h code key m).
  Proof.
    induction m as [|e m IH]; intros h; [reflexivity|]. cbn [s_map_find map_find].
    destruct (N.eqb (e_hash e) code); [|apply IH]. rewrite alone_andthen, node_eq_alone.
    destruct (node_eq fuel h key (e_key e)) as [[]| |]; cbn [rbind]; try reflexivity. apply IH.
  Qed.
  Lemma minimized_node_alone fuel m key : looks (s_minimized_node fuel m key) (fun h => minimized_node fuel h m key).
  Proof.
    intros h. unfold s_minimized_node, minimized_node. cbn [alone]. rewrite there_read.
    destruct (read h key) as [n| |]; cbn [rbind]; try reflexivity. rewrite alone_andthen, node_hash_alone.
    destruct (node_hash fuel h n); cbn [rbind]; try reflexivity. apply map_find_alone.
  Qed.
  Lemma map_replace_alone fuel code key p : forall m,
    looks (s_map_replace fuel code key p m) (fun h => map_replace fuel h code key p m).
  Proof.
    induction m as [|e m IH]; intros h; [reflexivity|]. cbn [s_map_replace map_replace].
    assert (R : alone alloc (let* r := s_map_replace fuel code key p m in Done (e :: r)) h =
      (do x <- (do r <- map_replace fuel h code key p m; Ok (e :: r)); Ok (h, x))).
    { rewrite alone_andthen, IH. destruct (map_replace fuel h code key p m); reflexivity. }
    destruct (N.eqb (e_hash e) code); [|exact R]. rewrite alone_andthen, node_eq_alone.
    destruct (node_eq fuel h key (e_key e)) as [[]| |]; cbn [rbind]; try reflexivity. exact R.
  Qed.
  Lemma map_assign_alone fuel m p : looks (s_map_assign fuel m p) (fun h => map_assign fuel h m p).
  Proof.
    intros h. unfold s_map_assign, map_assign. cbn [alone]. rewrite there_read.
    destruct (read h p) as [n| |]; cbn [rbind]; try reflexivity. rewrite alone_andthen, node_hash_alone.
    destruct (node_hash fuel h n); cbn [rbind]; try reflexivity. apply map_replace_alone.
  Qed.

  Lemma minimize_loop_alone fuel : forall k w, changes (s_minimize_loop k fuel w) (fun h => minimize_loop k fuel h w).
  Proof.
    induction k as [|k IH]; intros w h; [reflexivity|]. cbn [s_minimize_loop minimize_loop].
    destruct (w_unchecked w) as [|[c s t] un]; [reflexivity|]. rewrite alone_andthen, minimized_node_alone.
    destruct (minimized_node fuel h (w_minimized w) t) as [q| |]; cbn [rbind]; try reflexivity.
    destruct (N.eqb q null).
    - rewrite alone_andthen, add_edge_alone. destruct (add_edge h s c t) as [h1| |]; cbn [rbind]; try reflexivity.
      rewrite alone_andthen, map_assign_alone.
      destruct (map_assign fuel h1 (w_minimized w) t); cbn [rbind]; try reflexivity. apply IH.
    - rewrite alone_andthen, add_edge_alone. destruct (add_edge h s c q) as [h1| |]; cbn [rbind]; try reflexivity.
      apply IH.
  Qed.
  Lemma minimize_alone fuel w lb : changes (s_minimize fuel w lb) (fun h => minimize fuel h w lb).
  Proof. apply minimize_loop_alone. Qed.

  Lemma push_suffix_alone : forall rest w s,
    changes (s_push_suffix w s rest) (fun h => let '(h1, w1, p) := push_suffix alloc h w s rest in Ok (h1, (w1, p))).
  Proof.
    induction rest as [|c rest IH]; intros w s h; [reflexivity|]. cbn [s_push_suffix push_suffix].
    rewrite alone_andthen. cbn [s_new_node alone rbind new_node]. apply IH.
  Qed.

  Lemma add_alone fuel b term : changes (s_add fuel b term)
    (fun h => do (r, h1, b1) <- add fuel alloc h b term; Ok (h1, (r, b1))).
  Proof.
    intros h. unfold s_add, add. destruct (str_ltb term (b_prev b)); [reflexivity|]. destruct term as [|c term].
    - rewrite alone_andthen, set_final_alone. destruct (set_final h (d_root (b_dawg b)) true); reflexivity.
    - cbv zeta. destruct (b_work b) as [w|]; [|reflexivity]. cbn [deref rbind]. rewrite alone_andthen, minimize_alone.
      destruct (minimize fuel h w _) as [[h1 w1]| |]; cbn [rbind]; try reflexivity.
      rewrite alone_andthen, push_suffix_alone. destruct (push_suffix alloc h1 w1 _ _) as [[h2 w2] p]. cbn [rbind].
      rewrite alone_andthen, set_final_alone. destruct (set_final h2 p true); reflexivity.
  Qed.
  Lemma finish_alone fuel b : changes (s_finish fuel b) (fun h => finish fuel h b).
  Proof.
    intros h. unfold s_finish, finish. destruct (b_work b) as [w|]; [|reflexivity]. cbn [deref rbind].
    rewrite alone_andthen, minimize_alone. destruct (minimize fuel h w 0) as [[h1 w1]| |]; reflexivity.
  Qed.
  Lemma clean_up_alone fuel b : changes (s_clean_up fuel b) (fun h => clean_up fuel h b).
  Proof.
    intros h. unfold s_clean_up, clean_up. destruct (b_work b) as [w|]; [|reflexivity].
    rewrite alone_andthen, all_nodes_alone. destruct (all_nodes fuel h (b_dawg b)) as [ns| |]; cbn [rbind]; try reflexivity.
    rewrite alone_andthen, delete_all_alone. destruct (delete_all h _); reflexivity.
  Qed.
  Lemma new_sorted_dawg_alone : changes s_new_sorted_dawg (fun h => Ok (new_sorted_dawg alloc h)).
  Proof. intros h. reflexivity. Qed.
  Lemma destroy_alone fuel b : changes (s_destroy fuel b) (fun h => do h1 <- destroy fuel h b; Ok (h1, tt)).
  Proof.
    intros h. unfold s_destroy, destroy. rewrite alone_andthen, clean_up_alone.
    destruct (clean_up fuel h b) as [[h1 b1]| |]; cbn [rbind]; try reflexivity. apply destroy_dawg_alone.
  Qed.
  Lemma add_all_alone fuel : forall terms b, changes (s_add_all fuel b terms) (fun h => add_all fuel alloc h b terms).
  Proof.
    induction terms as [|t terms IH]; intros b h; [reflexivity|]. cbn [s_add_all add_all].
    rewrite alone_andthen, add_alone. destruct (add fuel alloc h b t) as [[[r h1] b1]| |]; cbn [rbind]; try reflexivity.
    destruct r; [apply IH|]. rewrite alone_andthen, destroy_alone. destruct (destroy fuel h1 b1); reflexivity.
  Qed.
  Lemma sorted_dawg_alone fuel terms : changes (s_sorted_dawg fuel terms) (fun h => sorted_dawg fuel alloc h terms).
  Proof.
    intros h. unfold s_sorted_dawg, sorted_dawg. rewrite alone_andthen, new_sorted_dawg_alone.
    destruct (new_sorted_dawg alloc h) as [h0 b0]. cbn [rbind]. rewrite alone_andthen, add_all_alone.
    destruct (add_all fuel alloc h0 (init b0) terms) as [[h1 [b1|]]| |]; cbn [rbind]; try reflexivity.
    rewrite alone_andthen, finish_alone. destruct (finish fuel h1 b1) as [[h2 b2]| |]; cbn [rbind]; try reflexivity.
    rewrite alone_andthen, clean_up_alone. destruct (clean_up fuel h2 b2) as [[h3 b3]| |]; reflexivity.
  Qed.

  (** Queries *)
  Lemma pure_alone {A} (r : res A) : looks (pure r) (fun _ => r).
  Proof. intros h. destruct r; reflexivity. Qed.

  Section Query.
    Context {R : Type} (rt : result_type R).
    Variables (alg : algorithm) (term : str) (n : N).

    Lemma advance_step_alone q :
      looks (s_advance_step rt alg term n q) (fun h => advance_step rt h alg term n q).
    Proof.
      intros h. unfold s_advance_step, advance_step. destruct (q_edges q) as [|[label next] es].
      - destruct (q_pending q) as [|x rest]; [reflexivity|]. destruct (i_state x); [reflexivity|].
        cbn [alone]. rewrite there_read. destruct (read h (i_node x)); reflexivity.
      - rewrite alone_andthen, pure_alone. destruct (deref (q_current q)) as [x| |]; cbn [rbind]; try reflexivity.
        rewrite alone_andthen, pure_alone.
        destruct (characteristic_vector label term (q_k q) (q_i q)) as [cv| |]; cbn [rbind]; try reflexivity.
        rewrite alone_andthen, pure_alone.
        destruct (state_transition alg n _ (i_state x) cv) as [[st|]| |]; cbn [rbind]; try reflexivity.
        cbv zeta. cbn [alone]. rewrite there_read. destruct (read h next) as [m| |]; cbn [rbind]; try reflexivity.
        destruct (nfin m); [|reflexivity]. destruct (_ <=? n)%N; reflexivity.
    Qed.
    Lemma advance_query_loop_alone : forall fuel q,
      looks (s_advance_query_loop rt alg term n fuel q) (fun h => advance_query_loop rt h alg term n fuel q).
    Proof.
      induction fuel as [|fuel IH]; intros q h; [reflexivity|]. cbn [s_advance_query_loop advance_query_loop].
      rewrite alone_andthen, advance_step_alone.
      destruct (advance_step rt h alg term n q) as [[[] q']| |]; cbn [rbind]; try reflexivity.
      destruct (has_work q'); [apply IH|reflexivity].
    Qed.
    Lemma advance_query_alone fuel q :
      looks (s_advance_query rt alg term n fuel q) (fun h => advance_query rt h alg term n fuel q).
    Proof.
      intros h. unfold s_advance_query, advance_query. destruct (has_work q); [|reflexivity].
      apply advance_query_loop_alone.
    Qed.
    Lemma new_query_alone fuel root :
      looks (s_new_query rt alg term n fuel root) (fun h => new_query rt h alg term n fuel root).
    Proof.
      intros h. unfold s_new_query, new_query. cbv zeta. cbn [alone]. rewrite there_read.
      destruct (read h (i_node root)) as [m| |]; cbn [rbind]; try reflexivity.
      destruct (nfin m && _); [reflexivity|]. apply advance_query_alone.
    Qed.
    Lemma collect_alone fuel : forall rounds q,
      looks (s_collect rt alg term n rounds fuel q) (fun h => collect rt h alg term n rounds fuel q).
    Proof.
      induction rounds as [|rounds IH]; intros q h; [reflexivity|]. cbn [s_collect collect].
      destruct (query_eq q (end_query rt)); [reflexivity|]. rewrite alone_andthen, advance_query_alone.
      destruct (advance_query rt h alg term n fuel q) as [q'| |]; cbn [rbind]; try reflexivity.
      rewrite alone_andthen, IH. destruct (collect rt h alg term n rounds fuel q'); reflexivity.
    Qed.
  End Query.
  Lemma query_all_alone {R} (rt : result_type R) fuel t term n :
    looks (s_query_all rt fuel t term n) (fun h => query_all rt fuel h t term n).
  Proof.
    intros h. unfold s_query_all, query_all, begin_query. rewrite alone_andthen, new_query_alone.
    destruct (new_query rt h (tr_alg t) term n fuel (tr_root t)) as [q| |]; cbn [rbind]; try reflexivity.
    apply collect_alone.
  Qed.

  (** The serializer *)
  Lemma collect_nodes_alone : forall fuel p ids finals,
    looks (s_collect_nodes fuel p ids finals) (fun h => collect_nodes fuel h p ids finals).
  Proof.
    induction fuel as [|fuel IH]; intros p ids finals h; [reflexivity|]. cbn [s_collect_nodes collect_nodes].
    destruct (set_mem p ids); [reflexivity|]. cbn [alone]. rewrite there_read.
    destruct (read h p) as [n| |]; cbn [rbind]; try reflexivity.
    generalize (if nfin n then id_insert p finals else finals). generalize (id_insert p ids).
    induction (nedges n) as [|[c q] es IHes]; intros is fs; [reflexivity|].
    rewrite alone_andthen, IH. destruct (collect_nodes fuel h q is fs) as [[is1 fs1]| |]; cbn [rbind]; try reflexivity.
    apply IHes.
  Qed.
  Lemma collect_edges_alone : forall fuel p m,
    looks (s_collect_edges fuel p m) (fun h => collect_edges fuel h p m).
  Proof.
    induction fuel as [|fuel IH]; intros p m h; [reflexivity|]. cbn [s_collect_edges collect_edges].
    cbn [alone]. rewrite there_read. destruct (read h p) as [n| |]; cbn [rbind]; try reflexivity. revert m.
    induction (nedges n) as [|[c q] es IHes]; intros m; [reflexivity|].
    destruct (edges_contains m (p, c)); [apply IHes|].
    rewrite alone_andthen, IH. destruct (collect_edges fuel h q _) as [m1| |]; cbn [rbind]; try reflexivity.
    apply IHes.
  Qed.
  Lemma to_protobuf_alone fuel d : looks (s_to_protobuf fuel d) (fun h => to_protobuf fuel h d).
  Proof.
    intros h. unfold s_to_protobuf, to_protobuf. rewrite alone_andthen, collect_nodes_alone.
    destruct (collect_nodes fuel h (d_root d) [] []) as [[ids finals]| |]; cbn [rbind]; try reflexivity.
    rewrite alone_andthen, collect_edges_alone. destruct (collect_edges fuel h (d_root d) []); reflexivity.
  Qed.
  Lemma make_nodes_alone finals : forall ids nodes,
    changes (s_make_nodes finals ids nodes) (fun h => Ok (make_nodes alloc h finals ids nodes)).
  Proof.
    induction ids as [|i ids IH]; intros nodes h; [reflexivity|]. cbn [s_make_nodes make_nodes].
    destruct (find_node nodes i); [apply IH|]. rewrite alone_andthen. cbn [s_new_node alone rbind new_node]. apply IH.
  Qed.
  Lemma link_edges_alone nodes : forall es,
    changes (s_link_edges nodes es) (fun h => do h1 <- link_edges h nodes es; Ok (h1, tt)).
  Proof.
    induction es as [|e es IH]; intros h; [reflexivity|]. cbn [s_link_edges link_edges].
    rewrite alone_andthen, add_edge_alone. destruct (add_edge h _ _ _); cbn [rbind]; try reflexivity. apply IH.
  Qed.
  Lemma from_protobuf_alone m : changes (s_from_protobuf m) (fun h => from_protobuf alloc h m).
  Proof.
    intros h. unfold s_from_protobuf, from_protobuf. rewrite alone_andthen, make_nodes_alone.
    destruct (make_nodes alloc h (m_finals m) (m_nodes m) []) as [h1 nodes]. cbn [rbind].
    rewrite alone_andthen, link_edges_alone. destruct (link_edges h1 nodes (m_edges m)); reflexivity.
  Qed.
End Alone.

(** * SpecBounds: vocabulary for statements about the work a query does. *)
From Verif Require Import Base Spec ModelTransducer ModelDawg ModelQuery SpecDawg.

(** A query with a log: which prefixes of dictionary terms StateTransition was
    called for, in the order of the calls.  [tried q] is the prefix that the next
    iteration of the loop of LazyQuery::advance looks at: none if it takes an
    intersection from the queue (lazy_query.cpp:37-46), otherwise that of the
    current intersection and the label of the next edge (:48-57). *)
Section Log.
  Context {R : Type} (rt : result_type R).
  Variables (h : heap) (alg : algorithm) (term : str) (max_distance : N).

  Definition tried (q : query R) : list str :=
    match q_edges q, q_current q with
    | (label, _) :: _, Some x => [i_str x ++ [label]]
    | _, _ => []
    end.

  (** advance_query_loop, advance_query, new_query and increments of ModelQuery,
      with the log.  That they do the same is part of the theorem. *)
  Fixpoint log_loop (fuel : nat) (q : query R) : res (list str * query R) :=
    match fuel with
    | O => OOF
    | S fuel' =>
        do (broke, q') <- advance_step rt h alg term max_distance q;
        if broke then Ok (tried q, q')
        else if has_work q' then do (log, q2) <- log_loop fuel' q'; Ok (tried q ++ log, q2)
        else Ok (tried q, q')
    end.

  Definition log_advance (fuel : nat) (q : query R) : res (list str * query R) :=
    if has_work q then log_loop fuel (set_complete q) else Ok ([], set_complete q).

  Definition log_new (fuel : nat) (root : intersection) : res (list str * query R) :=
    do n <- read h (i_node root);
    if nfin n && (N.of_nat (length term) <=? max_distance)%N then
      Ok ([], Query [root] [] false None (r_update rt [] (N.of_nat (length term))) 0%N 0%N)
    else log_advance fuel (Query [root] [] false None (r_default rt) 0%N 0%N).

  Fixpoint log_increments (fuel k : nat) (q : query R) : res (list str * query R) :=
    match k with
    | O => Ok ([], q)
    | S k' =>
        do (log, q1) <- log_advance fuel q;
        do (log', q2) <- log_increments fuel k' q1;
        Ok (log ++ log', q2)
    end.
End Log.

(** What the iterator has looked at after construction and [k] increments. *)
Definition log_after {R : Type} (rt : result_type R) (fuel : nat) (h : heap) (t : transducer)
  (term : str) (max_distance : N) (k : nat) : res (list str * query R) :=
  do (log, q) <- log_new rt h (tr_alg t) term max_distance fuel (tr_root t);
  do (log', q') <- log_increments rt h (tr_alg t) term max_distance fuel k q;
  Ok (log ++ log', q').

Definition works {R : Type} (rt : result_type R) (alg : algorithm) (h : heap) (d : dawg)
  (q : str) (n : N) (k : nat) (log : list str) (it : query R) : Prop :=
  runs_to (fun fuel => log_after rt fuel h (new_transducer alg (d_root d)) q n k) (log, it).

(** The prefix [v ++ [c]] of a term is worth looking at if some string, in the
    dictionary or not, that starts with [v] is close enough to the query. *)
Definition worth_trying (alg : algorithm) (terms : list str) (q : str) (n : N) (w : str) : Prop :=
  exists v c u z k, w = v ++ [c] /\ In (w ++ u) terms /\ edit_distance alg q (v ++ z) k /\ (N.of_nat k <= n)%N.

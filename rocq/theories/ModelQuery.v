(** * ModelQuery: Transducer, Intersection, LazyQuery, LazyIterator. *)
From Verif Require Import Base Spec ModelTransducer ModelDawg.
Local Open Scope N_scope.

(** Intersection (intersection.h:64-74).  Intersections are never modified after
    construction and live as long as the query (or the transducer, for the root),
    so the parent pointer is modelled by the parent itself.  The root, whose
    parent is null, carries the label NUL, which is never read. *)
Inductive intersection :=
| RootI (n : ptr) (st : state)
| ChildI (label : char) (n : ptr) (st : state) (parent : intersection).

(** Intersection::node, state (intersection.cpp:17-23). *)
Definition i_node (x : intersection) : ptr :=
  match x with RootI n _ => n | ChildI _ n _ _ => n end.
Definition i_state (x : intersection) : state :=
  match x with RootI _ st => st | ChildI _ _ st _ => st end.

(** Intersection::str and operator<< (intersection.cpp:25-37). *)
Fixpoint i_str (x : intersection) : str :=
  match x with
  | RootI _ _ => []
  | ChildI c _ _ parent => i_str parent ++ [c]
  end.

(** Transducer<Type, Result> (transducer.cpp:13-18): the initial intersection. *)
Record transducer := Transducer { tr_alg : algorithm; tr_root : intersection }.
Definition new_transducer (alg : algorithm) (root : ptr) : transducer :=
  Transducer alg (RootI root [Pos 0 0 false]).

(** The template parameter Result: the default value, and update_candidate
    (lazy_query.cpp:92-104). *)
Record result_type (R : Type) := ResultType { r_default : R; r_update : str -> N -> R }.
Arguments ResultType {R}. Arguments r_default {R}. Arguments r_update {R}.

(** Result = std::string, and Result = std::pair<std::string, std::size_t>. *)
Definition as_string : result_type str := ResultType [] (fun term _ => term).
Definition as_candidate : result_type (str * N) := ResultType ([], 0) (fun term d => (term, d)).

(** LazyQuery (lazy_query.h:84-131).  [_term], [_max_distance], the functions
    and [_a] never change and are parameters below; [_intersections] only owns
    memory and is left out.  [_k] and [_i] are uninitialised until the first
    intersection is taken from the queue; the model starts them at 0 and they
    are not read before. *)
Record query (R : Type) := Query {
  q_pending : list intersection;
  q_edges : list (char * ptr);
  q_complete : bool;
  q_current : option intersection;
  q_candidate : R;
  q_k : N;
  q_i : N }.
Arguments Query {R}. Arguments q_pending {R}. Arguments q_edges {R}. Arguments q_complete {R}.
Arguments q_current {R}. Arguments q_candidate {R}. Arguments q_k {R}. Arguments q_i {R}.

Section Query.
  Context {R : Type} (rt : result_type R).
  Variables (h : heap) (alg : algorithm) (term : str) (max_distance : N).

  Let len := N.of_nat (length term).

  (** One iteration of the do-while loop of LazyQuery::advance
      (lazy_query.cpp:37-70); the flag tells whether it ended with [break]. *)
  Definition advance_step (q : query R) : res (bool * query R) :=
    match q_edges q with
    | [] =>
        match q_pending q with
        | [] => UB    (* front() of an empty queue; excluded by the loop condition *)
        | x :: rest =>
            match i_state x with
            | [] => UB    (* head() is null, :42 *)
            | head :: _ =>
                do n <- read h (i_node x);
                Ok (false, Query rest (nedges n) (q_complete q) (Some x) (q_candidate q)
                             (query_k (query_a max_distance) len (ti head)) (ti head))
            end
        end
    | (label, next) :: edges =>
        do x <- deref (q_current q);
        do cv <- characteristic_vector label term (q_k q) (q_i q);
        do o <- state_transition alg max_distance len (i_state x) cv;
        match o with
        | None => Ok (false, Query (q_pending q) edges (q_complete q) (q_current q) (q_candidate q) (q_k q) (q_i q))
        | Some st =>
            let y := ChildI label next st x in
            let pending := q_pending q ++ [y] in
            let go_on := Ok (false, Query pending edges (q_complete q) (q_current q) (q_candidate q) (q_k q) (q_i q)) in
            do n <- read h next;
            if nfin n then
              let d := distance alg st len in
              if d <=? max_distance then
                Ok (true, Query pending edges false (q_current q) (r_update rt (i_str y) d) (q_k q) (q_i q))
              else go_on
            else go_on
        end
    end.

  (** [!_edges.empty() || !_pending.empty()] *)
  Definition has_work (q : query R) : bool :=
    match q_edges q, q_pending q with [], [] => false | _, _ => true end.

  Fixpoint advance_query_loop (fuel : nat) (q : query R) : res (query R) :=
    match fuel with
    | O => OOF
    | S fuel' =>
        do (broke, q') <- advance_step q;
        if broke then Ok q'
        else if has_work q' then advance_query_loop fuel' q' else Ok q'
    end.

  Definition set_complete (q : query R) : query R :=
    Query (q_pending q) (q_edges q) true (q_current q) (q_candidate q) (q_k q) (q_i q).

  (** LazyQuery::advance (lazy_query.cpp:33-76), which is also operator++
      (:86-90). *)
  Definition advance_query (fuel : nat) (q : query R) : res (query R) :=
    if has_work q then advance_query_loop fuel (set_complete q)
    else Ok (set_complete q).

  (** LazyQuery::LazyQuery (lazy_query.cpp:8-25). *)
  Definition new_query (fuel : nat) (root : intersection) : res (query R) :=
    let q := Query [root] [] false None (r_default rt) 0 0 in
    do n <- read h (i_node root);
    if nfin n && (len <=? max_distance) then
      Ok (Query [root] [] false None (r_update rt [] len) 0 0)
    else advance_query fuel q.

  (** The iterator after [k] increments. *)
  Fixpoint increments (fuel k : nat) (q : query R) : res (query R) :=
    match k with
    | O => Ok q
    | S k' => do q' <- advance_query fuel q; increments fuel k' q'
    end.

  (** LazyIterator::end (lazy_query.cpp:151-154): a LazyQuery made by its
      default constructor (lazy_query.h:55, initialisers at :84-131). *)
  Definition end_query : query R := Query [] [] false None (r_default rt) 0 0.

  (** [q == other]: operator== (lazy_query.cpp:111-115). *)
  Definition query_eq (q other : query R) : bool := q_complete q.

  (** [for (const Result &r : iterator) out.push_back(r);]: the loop condition is
      [it != end], which C++20 rewrites to [!(it == end)]. *)
  Fixpoint collect (rounds fuel : nat) (q : query R) : res (list R) :=
    match rounds with
    | O => OOF
    | S rounds' =>
        if query_eq q end_query then Ok []
        else
          do q' <- advance_query fuel q;
          do out <- collect rounds' fuel q';
          Ok (q_candidate q :: out)
    end.

  (** The same loop with the condition written [end != it], that is
      [!(end == it)]. *)
  Fixpoint collect_backwards (rounds fuel : nat) (q : query R) : res (list R) :=
    match rounds with
    | O => OOF
    | S rounds' =>
        if query_eq end_query q then Ok []
        else
          do q' <- advance_query fuel q;
          do out <- collect_backwards rounds' fuel q';
          Ok (q_candidate q :: out)
    end.
End Query.

(** Transducer::operator() and LazyIterator::begin (transducer.cpp:25-36,
    lazy_query.cpp:145-149). *)
Definition begin_query {R : Type} (rt : result_type R) (fuel : nat) (h : heap) (t : transducer)
  (term : str) (max_distance : N) : res (query R) :=
  new_query rt h (tr_alg t) term max_distance fuel (tr_root t).

(** The iterator after construction and [k] increments. *)
Definition query_after {R : Type} (rt : result_type R) (fuel : nat) (h : heap) (t : transducer)
  (term : str) (max_distance : N) (k : nat) : res (query R) :=
  do q <- begin_query rt fuel h t term max_distance;
  increments rt h (tr_alg t) term max_distance fuel k q.

(** The whole range-for loop. *)
Definition query_all {R : Type} (rt : result_type R) (fuel : nat) (h : heap) (t : transducer)
  (term : str) (max_distance : N) : res (list R) :=
  do q <- begin_query rt fuel h t term max_distance;
  collect rt h (tr_alg t) term max_distance fuel fuel q.

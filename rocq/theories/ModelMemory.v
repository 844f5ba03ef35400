(** * ModelMemory: Intersection, LazyQuery and Transducer in memory.

    The same functions as in ModelQuery, with every object allocated and freed
    the way the source does it.  ModelQuery has intersections and states as
    values; MemoryProofs and PropsMemory relate the two. *)
From Verif Require Import Base Spec ModelTransducer ModelDawg ModelQuery ModelState.
Local Open Scope N_scope.

(** Intersection (intersection.h:64-74). *)
Record icell := ICell { ic_label : char; ic_node : ptr; ic_state : ptr; ic_parent : ptr }.

(** The objects a query allocates: positions, states and intersections. *)
Record world := World { w_pos : positions; w_st : states; w_int : mem icell }.

(** [operator new] for the three classes. *)
Record allocators := Allocators {
  a_pos : positions -> ptr;
  a_st : states -> ptr;
  a_int : mem icell -> ptr }.

(** [delete state] (state.cpp:22-24): nothing for a null pointer. *)
Definition delete_state (fuel : nat) (w : world) (s : ptr) : res world :=
  if s =? null then Ok w
  else
    do head <- mread (w_st w) s;
    do m <- destroy_state fuel (w_pos w) head;
    do ss <- mfree (w_st w) s;
    Ok (World m ss (w_int w)).

(** [delete intersection]: Intersection::~Intersection (intersection.cpp:13-15)
    deletes the state. *)
Definition delete_intersection (fuel : nat) (w : world) (p : ptr) : res world :=
  if p =? null then Ok w
  else
    do x <- mread (w_int w) p;
    do w1 <- delete_state fuel w (ic_state x);
    do is <- mfree (w_int w1) p;
    Ok (World (w_pos w1) (w_st w1) is).

(** [for (Intersection *intersection : _intersections) delete intersection;] *)
Fixpoint delete_intersections (fuel : nat) (w : world) (ps : list ptr) : res world :=
  match ps with
  | [] => Ok w
  | p :: ps' => do w1 <- delete_intersection fuel w p; delete_intersections fuel w1 ps'
  end.

(** The label '\0' of the first intersection. *)
Definition NUL : char := Ascii.zero.

(** [new Intersection(...)] (intersection.cpp:7-11). *)
Definition new_intersection (al : allocators) (w : world) (x : icell) : ptr * world :=
  let (p, is) := mnew (a_int al) (w_int w) x in (p, World (w_pos w) (w_st w) is).

(** Transducer::Transducer (transducer.cpp:13-18); the transducer is its
    [_intersection]. *)
Definition make_transducer (fuel : nat) (al : allocators) (w : world) (root : ptr)
  : res (world * ptr) :=
  let (position, m1) := new_position (a_pos al) (w_pos w) (Pos 0 0 false) in
  do (m2, head) <- state_of fuel m1 [position];
  let (initial_state, ss) := mnew (a_st al) (w_st w) head in
  let (p, w1) := new_intersection al (World m2 ss (w_int w)) (ICell NUL root initial_state null) in
  Ok (w1, p).

(** Transducer::~Transducer (transducer.cpp:20-23). *)
Definition destroy_transducer (fuel : nat) (w : world) (t : ptr) : res world :=
  delete_intersection fuel w t.

(** Intersection::str, operator<< (intersection.cpp:25-37). *)
Fixpoint intersection_str (fuel : nat) (is : mem icell) (p : ptr) : res str :=
  match fuel with
  | O => OOF
  | S fuel' =>
      do x <- mread is p;
      if negb (ic_parent x =? null) then
        do s <- intersection_str fuel' is (ic_parent x);
        Ok (s ++ [ic_label x])
      else Ok []
  end.

(** LazyQuery (lazy_query.h:84-131), see ModelQuery; [_intersection] is null
    until the first intersection is taken from the queue. *)
Record lazy_query (R : Type) := LazyQuery {
  l_pending : list ptr;
  l_edges : list (char * ptr);
  l_intersections : list ptr;
  l_complete : bool;
  l_current : ptr;
  l_candidate : R;
  l_k : N;
  l_i : N }.
Arguments LazyQuery {R}. Arguments l_pending {R}. Arguments l_edges {R}. Arguments l_intersections {R}.
Arguments l_complete {R}. Arguments l_current {R}. Arguments l_candidate {R}. Arguments l_k {R}. Arguments l_i {R}.

Section LazyQuery.
  Context {R : Type} (rt : result_type R).
  Variables (fuel : nat) (al : allocators) (order : positions -> ptr -> bool).
  Variables (h : heap) (alg : algorithm) (term : str) (max_distance : N).

  Let len := N.of_nat (length term).

  (** One iteration of the do-while loop (lazy_query.cpp:37-70).  The null
      [_intersection] of a query that has not started is dereferenced when there
      are edges but no current intersection, which is UB here as well. *)
  Definition lazy_step (w : world) (q : lazy_query R) : res (bool * world * lazy_query R) :=
    match l_edges q with
    | [] =>
        match l_pending q with
        | [] => UB
        | p :: rest =>
            do x <- mread (w_int w) p;
            do head <- mread (w_st w) (ic_state x);
            do pos <- get_pos (w_pos w) head;
            do n <- read h (ic_node x);
            Ok (false, w, LazyQuery rest (nedges n) (l_intersections q) (l_complete q) p (l_candidate q)
                            (query_k (query_a max_distance) len (ti pos)) (ti pos))
        end
    | (label, next) :: edges =>
        do x <- mread (w_int w) (l_current q);
        do cv <- characteristic_vector label term (l_k q) (l_i q);
        do (m1, ss1, next_state) <-
          state_transition_pointers fuel (a_pos al) (a_st al) order alg max_distance len
            (w_pos w) (w_st w) (ic_state x) cv;
        let w1 := World m1 ss1 (w_int w) in
        if negb (next_state =? null) then
          let (y, w2) := new_intersection al w1 (ICell label next next_state (l_current q)) in
          let owned := l_intersections q ++ [y] in
          let pending := l_pending q ++ [y] in
          let go_on := Ok (false, w2, LazyQuery pending edges owned (l_complete q) (l_current q)
                                        (l_candidate q) (l_k q) (l_i q)) in
          do n <- read h next;
          if nfin n then
            do head <- mread (w_st w2) next_state;
            do d <- distance_pointers fuel alg (w_pos w2) head len;
            if d <=? max_distance then
              do s <- intersection_str fuel (w_int w2) y;
              Ok (true, w2, LazyQuery pending edges owned false (l_current q) (r_update rt s d) (l_k q) (l_i q))
            else go_on
          else go_on
        else
          Ok (false, w1, LazyQuery (l_pending q) edges (l_intersections q) (l_complete q) (l_current q)
                           (l_candidate q) (l_k q) (l_i q))
    end.

  (** [!_edges.empty() || !_pending.empty()] *)
  Definition lazy_work (q : lazy_query R) : bool :=
    match l_edges q, l_pending q with [], [] => false | _, _ => true end.

  Fixpoint lazy_loop (rounds : nat) (w : world) (q : lazy_query R) : res (world * lazy_query R) :=
    match rounds with
    | O => OOF
    | S rounds' =>
        do (broke, w', q') <- lazy_step w q;
        if broke then Ok (w', q')
        else if lazy_work q' then lazy_loop rounds' w' q' else Ok (w', q')
    end.

  Definition lazy_complete (q : lazy_query R) : lazy_query R :=
    LazyQuery (l_pending q) (l_edges q) (l_intersections q) true (l_current q) (l_candidate q) (l_k q) (l_i q).

  (** LazyQuery::advance (lazy_query.cpp:33-76) and operator++ (:86-90). *)
  Definition lazy_advance (w : world) (q : lazy_query R) : res (world * lazy_query R) :=
    if lazy_work q then lazy_loop fuel w (lazy_complete q)
    else Ok (w, lazy_complete q).

  (** LazyQuery::LazyQuery (lazy_query.cpp:8-25), called by LazyIterator::begin
      (lazy_query.cpp:145-149) with the intersection of the transducer. *)
  Definition lazy_begin (w : world) (t : ptr) : res (world * lazy_query R) :=
    do x <- mread (w_int w) t;
    do n <- read h (ic_node x);
    if nfin n && (len <=? max_distance) then
      Ok (w, LazyQuery [t] [] [] false null (r_update rt [] len) 0 0)
    else lazy_advance w (LazyQuery [t] [] [] false null (r_default rt) 0 0).

  (** LazyQuery::~LazyQuery (lazy_query.cpp:27-31). *)
  Definition lazy_destroy (w : world) (q : lazy_query R) : res world :=
    delete_intersections fuel w (l_intersections q).
End LazyQuery.

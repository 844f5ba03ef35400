(** * ModelThrow: queries when memory runs out.

    An allocation that fails throws std::bad_alloc.  Nothing in the library
    catches it, so the exception leaves operator++ or LazyIterator::begin and
    what was under way stays as it is: there are no owning local objects other
    than standard containers.  Here the functions of ModelMemory, with the state
    in which an exception leaves the query.

    The allocations that can fail are the [new] expressions and, in LazyQuery, the
    insertions into containers and the strings, which count as one allocation
    each even where the standard library would not need one.  Simplification:
    the std::vector objects inside the transition functions are not counted; an
    exception from them would leave the query in the same state as one from the
    [new] expressions around them. *)
From Verif Require Import Base Spec ModelTransducer ModelDawg ModelQuery ModelState ModelMemory ModelShared.
Local Open Scope N_scope.

(** How many allocations still succeed; [None]: all. *)
Definition budget := option nat.
Definition spend (b : budget) : option budget :=
  match b with
  | None => Some None
  | Some O => None
  | Some (S k) => Some (Some k)
  end.

Section Attempt.
  Variables (al : allocators) (order : positions -> ptr -> bool) (h : heap).

  (** A program of ModelShared that runs alone until it ends or an allocation
      fails; then there is no result and memory stays as it is. *)
  Fixpoint attempt {A : Type} (p : program A) (b : budget) (w : world) : res (budget * world * option A) :=
    match p with
    | Return x => Ok (b, w, Some x)
    | Undefined => UB
    | NoFuel => OOF
    | Read c a k => do x <- mread (part w c) a; attempt (k x) b w
    | Write c a x k => do m <- mwrite (part w c) a x; attempt k b (with_part w c m)
    | New c x k =>
        match spend b with
        | None => Ok (b, w, None)
        | Some b1 =>
            let a := alloc al c (part w c) in attempt (k a) b1 (with_part w c (mset (part w c) a x))
        end
    | Free c a k => do m <- mfree (part w c) a; attempt k b (with_part w c m)
    | ReadNode a k => do n <- read h a; attempt (k n) b w
    | Choose a x c k =>
        do m <- mwrite (w_pos w) a x; attempt (k (order m c)) b (World m (w_st w) (w_int w))
    end.
End Attempt.

Section Throw.
  Context {R : Type} (rt : result_type R).
  Variables (fuel : nat) (al : allocators) (order : positions -> ptr -> bool).
  Variables (h : heap) (alg : algorithm) (term : str) (max_distance : N).

  Let len := N.of_nat (length term).

  (** One iteration of the do-while loop (lazy_query.cpp:37-70).  The last
      component tells whether it ended with [break]; it is [None] if an exception
      was thrown. *)
  Definition try_step (b : budget) (w : world) (q : lazy_query R)
    : res (budget * world * lazy_query R * option bool) :=
    match l_edges q with
    | [] =>
        match l_pending q with
        | [] => UB
        | p :: rest =>
            do x <- mread (w_int w) p;
            do head <- mread (w_st w) (ic_state x);
            do pos <- get_pos (w_pos w) head;
            do n <- read h (ic_node x);
            let filled edges := LazyQuery rest edges (l_intersections q) (l_complete q) p (l_candidate q)
                                  (query_k (query_a max_distance) len (ti pos)) (ti pos) in
            match b with
            | None => Ok (b, w, filled (nedges n), Some false)
            | Some k =>
                if (k <? length (nedges n))%nat then Ok (Some O, w, filled (firstn k (nedges n)), None)
                else Ok (Some (k - length (nedges n))%nat, w, filled (nedges n), Some false)
            end
        end
    | (label, next) :: edges =>
        let popped := LazyQuery (l_pending q) edges (l_intersections q) (l_complete q) (l_current q)
                        (l_candidate q) (l_k q) (l_i q) in
        do x <- mread (w_int w) (l_current q);
        do cv <- characteristic_vector label term (l_k q) (l_i q);
        match spend b with
        | None => Ok (b, w, popped, None)    (* the vector of bools *)
        | Some b1 =>
        do (b2, w1, r) <- attempt al order h (p_state_transition fuel alg max_distance len (ic_state x) cv) b1 w;
        match r with
        | None => Ok (b2, w1, popped, None)
        | Some next_state =>
        if negb (next_state =? null) then
          match spend b2 with
          | None => Ok (b2, w1, popped, None)    (* new Intersection *)
          | Some b3 =>
          let (y, w2) := new_intersection al w1 (ICell label next next_state (l_current q)) in
          match spend b3 with
          | None => Ok (b3, w2, popped, None)    (* _intersections.push_back *)
          | Some b4 =>
          let owned := l_intersections q ++ [y] in
          match spend b4 with
          | None => Ok (b4, w2, LazyQuery (l_pending q) edges owned (l_complete q) (l_current q)
                                  (l_candidate q) (l_k q) (l_i q), None)    (* _pending.push *)
          | Some b5 =>
          let pending := l_pending q ++ [y] in
          let pushed := LazyQuery pending edges owned (l_complete q) (l_current q) (l_candidate q) (l_k q) (l_i q) in
          do n <- read h next;
          if nfin n then
            do head <- mread (w_st w2) next_state;
            do d <- distance_pointers fuel alg (w_pos w2) head len;
            if d <=? max_distance then
              do s <- intersection_str fuel (w_int w2) y;
              match spend b5 with
              | None => Ok (b5, w2, pushed, None)    (* std::string *)
              | Some b6 =>
                  Ok (b6, w2, LazyQuery pending edges owned false (l_current q) (r_update rt s d) (l_k q) (l_i q),
                      Some true)
              end
            else Ok (b5, w2, pushed, Some false)
          else Ok (b5, w2, pushed, Some false)
          end end end
        else Ok (b2, w1, popped, Some false)
        end end
    end.

  (** LazyQuery::advance (lazy_query.cpp:33-76) and operator++ (:86-90); the flag
      is false if an exception was thrown. *)
  Fixpoint try_loop (rounds : nat) (b : budget) (w : world) (q : lazy_query R)
    : res (budget * world * lazy_query R * bool) :=
    match rounds with
    | O => OOF
    | S rounds' =>
        do (b', w', q', r) <- try_step b w q;
        match r with
        | None => Ok (b', w', q', false)
        | Some true => Ok (b', w', q', true)
        | Some false => if lazy_work q' then try_loop rounds' b' w' q' else Ok (b', w', q', true)
        end
    end.

  Definition try_advance (b : budget) (w : world) (q : lazy_query R)
    : res (budget * world * lazy_query R * bool) :=
    if lazy_work q then try_loop fuel b w (lazy_complete q)
    else Ok (b, w, lazy_complete q, true).

  (** LazyQuery::LazyQuery (lazy_query.cpp:8-25), called by LazyIterator::begin
      (:145-149).  If it throws there is no query, and since ~LazyQuery is not
      called for an object that has not been constructed, what the constructor
      allocated stays.  The copies of the members and [_pending.push] count as
      one allocation. *)
  Definition try_begin (b : budget) (w : world) (t : ptr) : res (budget * world * option (lazy_query R)) :=
    match spend b with
    | None => Ok (b, w, None)
    | Some b1 =>
        do x <- mread (w_int w) t;
        do n <- read h (ic_node x);
        if nfin n && (len <=? max_distance) then
          match spend b1 with
          | None => Ok (b1, w, None)    (* update_candidate *)
          | Some b2 => Ok (b2, w, Some (LazyQuery [t] [] [] false null (r_update rt [] len) 0 0))
          end
        else
          do (b2, w1, q, done) <- try_advance b1 w (LazyQuery [t] [] [] false null (r_default rt) 0 0);
          Ok (b2, w1, if (done : bool) then Some q else None)
    end.
End Throw.

(** Transducer::Transducer (transducer.cpp:13-18).  If it throws there is no
    transducer, ~Transducer is not called, and what was allocated stays. *)
Definition try_make_transducer (fuel : nat) (al : allocators) (b : budget) (w : world) (root : ptr)
  : res (budget * world * option ptr) :=
  match spend b with
  | None => Ok (b, w, None)
  | Some b1 =>
      let (position, m1) := new_position (a_pos al) (w_pos w) (Pos 0 0 false) in
      match spend b1 with
      | None => Ok (b1, World m1 (w_st w) (w_int w), None)
      | Some b2 =>
          do (m2, head) <- state_of fuel m1 [position];
          let (initial_state, ss) := mnew (a_st al) (w_st w) head in
          match spend b2 with
          | None => Ok (b2, World m2 ss (w_int w), None)
          | Some b3 =>
              let (p, w1) := new_intersection al (World m2 ss (w_int w)) (ICell NUL root initial_state null) in
              Ok (b3, w1, Some p)
          end
      end
  end.

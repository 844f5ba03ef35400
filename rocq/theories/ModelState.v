(** * ModelState: positions in memory.

    State, StateIterator, merge, UnsubsumeFn and StateTransition as the source
    writes them, with next pointers and explicit allocation.  ModelTransducer
    has the same functions on lists of positions; PointerProofs and PropsState
    relate the two. *)
From Verif Require Import Base Spec ModelTransducer ModelDawg.
Local Open Scope N_scope.

(** ** Memory of the objects of one class

    Everything that ever happened at the addresses of the objects of the class,
    the last event first: what an address holds now is what its first entry
    says.  Since the events are kept, a function of the memory may depend on the
    whole history.  Objects of different classes live in different memories,
    which is no restriction: a pointer to one class is never used for another.

    A [Constant] object may be read but neither overwritten nor released; trying
    to is undefined behaviour.  No function makes one, but a memory that a
    theorem starts from may contain some: then the theorem says that they are
    never written, not even to be restored later. *)
Inductive content (A : Type) := Live (x : A) | Constant (x : A) | Gone.
Arguments Live {A}. Arguments Constant {A}. Arguments Gone {A}.
Definition mem (A : Type) := list (ptr * content A).

Fixpoint mlook {A : Type} (m : mem A) (p : ptr) : content A :=
  match m with
  | [] => Gone
  | (q, e) :: m' => if p =? q then e else mlook m' p
  end.

Definition mget {A : Type} (m : mem A) (p : ptr) : option A :=
  match mlook m p with Live x | Constant x => Some x | Gone => None end.
Definition mconst {A : Type} (m : mem A) (p : ptr) : bool :=
  match mlook m p with Constant _ => true | _ => false end.

Definition mdel {A : Type} (m : mem A) (p : ptr) : mem A := (p, Gone) :: m.
Definition mset {A : Type} (m : mem A) (p : ptr) (x : A) : mem A := (p, Live x) :: m.

(** Dereferencing a pointer: null and dangling pointers are UB. *)
Definition mread {A : Type} (m : mem A) (p : ptr) : res A :=
  if p =? null then UB else deref (mget m p).

(** Overwriting the object at a pointer. *)
Definition mwrite {A : Type} (m : mem A) (p : ptr) (x : A) : res (mem A) :=
  do _ <- mread m p; if mconst m p then UB else Ok (mset m p x).

(** Releasing the object at a non-null pointer; UB unless it is allocated. *)
Definition mfree {A : Type} (m : mem A) (p : ptr) : res (mem A) :=
  do _ <- mread m p; if mconst m p then UB else Ok (mdel m p).

(** [operator new]: any function that returns a non-null address not in use. *)
Definition mallocator {A : Type} (alloc : mem A -> ptr) : Prop :=
  forall m, alloc m <> null /\ mget m (alloc m) = None.

Definition mnew {A : Type} (alloc : mem A -> ptr) (m : mem A) (x : A) : ptr * mem A :=
  let p := alloc m in (p, mset m p x).

(** ** Position (position.h:65-79) *)
Record cell := Cell { c_pos : position; c_next : ptr }.
Definition positions := mem cell.

(** Position::next() and Position::next(Position* ) (position.cpp:15-21). *)
Definition get_next (m : positions) (p : ptr) : res ptr :=
  do c <- mread m p; Ok (c_next c).
Definition set_next (m : positions) (p q : ptr) : res positions :=
  do c <- mread m p; mwrite m p (Cell (c_pos c) q).

(** term_index, num_errors and is_special (position.cpp:23-33) together. *)
Definition get_pos (m : positions) (p : ptr) : res position :=
  do c <- mread m p; Ok (c_pos c).

(** [new Position(...)] (position.cpp:5-9): the next pointer is null. *)
Definition new_position (alloc : positions -> ptr) (m : positions) (x : position)
  : ptr * positions :=
  mnew alloc m (Cell x null).

(** [delete p]: Position::~Position (position.cpp:11-13) deletes the next
    position first, then the memory of [p] is released. *)
Fixpoint delete_position (fuel : nat) (m : positions) (p : ptr) : res positions :=
  match fuel with
  | O => OOF
  | S fuel' =>
      if p =? null then Ok m
      else
        do q <- get_next m p;
        do m1 <- delete_position fuel' m q;
        mfree m1 p
  end.

(** ** State (state.h:116-121): a State is its [_head]. *)

(** State::~State (state.cpp:22-24) is [delete _head]. *)
Definition destroy_state (fuel : nat) (m : positions) (head : ptr) : res positions :=
  delete_position fuel m head.

(** State::head(Position* ) (state.cpp:26-29). *)
Definition state_head (m : positions) (head p : ptr) : res (positions * ptr) :=
  do m1 <- set_next m p head; Ok (m1, p).

(** The walk to the last position in State::add (state.cpp:40-43). *)
Fixpoint last_position (fuel : nat) (m : positions) (curr : ptr) : res ptr :=
  match fuel with
  | O => OOF
  | S fuel' =>
      do next <- get_next m curr;
      if next =? null then Ok curr else last_position fuel' m next
  end.

(** State::add (state.cpp:35-46). *)
Definition state_add (fuel : nat) (m : positions) (head next : ptr) : res (positions * ptr) :=
  if head =? null then Ok (m, next)
  else
    do curr <- last_position fuel m head;
    do m1 <- set_next m curr next;
    Ok (m1, head).

(** State::insert_after (state.cpp:48-56). *)
Definition state_insert_after (fuel : nat) (m : positions) (head curr next : ptr)
  : res (positions * ptr) :=
  if negb (curr =? null) then
    do q <- get_next m curr;
    do m1 <- set_next m next q;
    do m2 <- set_next m1 curr next;
    Ok (m2, head)
  else state_add fuel m head next.

(** State::remove (state.cpp:58-71). *)
Definition state_remove (fuel : nat) (m : positions) (head prev curr : ptr)
  : res (positions * ptr) :=
  do (temp, m1, head1) <-
    (if negb (prev =? null) then
       do temp <- get_next m prev;
       do q <- get_next m curr;
       do m1 <- set_next m prev q;
       Ok (temp, m1, head)
     else
       do q <- get_next m head;
       Ok (head, m, q));
  do m2 <- set_next m1 temp null;
  do m3 <- delete_position fuel m2 temp;
  Ok (m3, head1).

(** State::State(positions) (state.cpp:6-20), both constructors. *)
Fixpoint state_of_loop (fuel : nat) (m : positions) (head curr : ptr) (ps : list ptr)
  : res (positions * ptr) :=
  match ps with
  | [] => Ok (m, head)
  | next :: ps' =>
      do (m1, head1) <- state_insert_after fuel m head curr next;
      state_of_loop fuel m1 head1 next ps'
  end.
Definition state_of (fuel : nat) (m : positions) (ps : list ptr) : res (positions * ptr) :=
  state_of_loop fuel m null null ps.

(** *** Sorting *)

(** State::find_middle (state.cpp:118-128). *)
Fixpoint find_middle_loop (fuel : nat) (m : positions) (slow fast : ptr) : res ptr :=
  match fuel with
  | O => OOF
  | S fuel' =>
      do f1 <- get_next m fast;
      if f1 =? null then Ok slow
      else
        do f2 <- get_next m f1;
        if f2 =? null then Ok slow
        else do s1 <- get_next m slow; find_middle_loop fuel' m s1 f2
  end.
Definition find_middle (fuel : nat) (m : positions) (lower : ptr) : res ptr :=
  find_middle_loop fuel m lower lower.

(** [curr->next(p)] inside State::merge, where [curr] is the address of the
    local variable [temp] ([None]) or of a position; [first] is [temp.next()]. *)
Definition link (m : positions) (first : ptr) (curr : option ptr) (p : ptr)
  : res (positions * ptr) :=
  match curr with
  | None => Ok (m, p)
  | Some c => do m1 <- set_next m c p; Ok (m1, first)
  end.

(** State::merge (state.cpp:88-116); returns the memory and [next->next()]. *)
Fixpoint merge_pointers (fuel : nat) (cmp : position -> position -> Z) (m : positions)
         (first : ptr) (curr : option ptr) (lower upper : ptr) : res (positions * ptr) :=
  match fuel with
  | O => OOF
  | S fuel' =>
      if negb (lower =? null) && negb (upper =? null) then
        do x <- get_pos m lower;
        do y <- get_pos m upper;
        if (cmp x y <? 1)%Z then
          do (m1, first1) <- link m first curr lower;
          do lower1 <- get_next m1 lower;
          merge_pointers fuel' cmp m1 first1 (Some lower) lower1 upper
        else
          do (m1, first1) <- link m first curr upper;
          do upper1 <- get_next m1 upper;
          merge_pointers fuel' cmp m1 first1 (Some upper) lower upper1
      else if negb (upper =? null) then link m first curr upper
      else if negb (lower =? null) then link m first curr lower
      else Ok (m, first)
  end.

(** State::merge_sort (state.cpp:73-86).  C++ leaves open in which order the two
    recursive calls, arguments of one call, are evaluated: [order] decides. *)
Fixpoint sort_pointers (fuel : nat) (order : positions -> ptr -> bool)
         (cmp : position -> position -> Z) (m : positions) (lower : ptr) : res (positions * ptr) :=
  match fuel with
  | O => OOF
  | S fuel' =>
      if lower =? null then Ok (m, lower)
      else
        do next <- get_next m lower;
        if next =? null then Ok (m, lower)
        else
          do middle <- find_middle fuel m lower;
          do upper <- get_next m middle;
          do m1 <- set_next m middle null;
          do (m3, a, b) <-
            (if order m1 lower then
               do (m2, a) <- sort_pointers fuel' order cmp m1 lower;
               do (m3, b) <- sort_pointers fuel' order cmp m2 upper;
               Ok (m3, a, b)
             else
               do (m2, b) <- sort_pointers fuel' order cmp m1 upper;
               do (m3, a) <- sort_pointers fuel' order cmp m2 lower;
               Ok (m3, a, b));
          merge_pointers fuel cmp m3 null None a b
  end.

(** State::sort (state.cpp:130-132): the new [_head]. *)
Definition state_sort (fuel : nat) (order : positions -> ptr -> bool)
  (cmp : position -> position -> Z) (m : positions) (head : ptr) : res (positions * ptr) :=
  sort_pointers fuel order cmp m head.

(** ** StateIterator (state_iterator.h:63-78)

    [_outer], a pointer to another iterator or null, is an argument of the only
    function that uses it, [iterator_remove]. *)
Record iterator := Iterator { si_curr : ptr; si_next : ptr; si_prev : ptr }.

(** StateIterator::StateIterator (state_iterator.cpp:6-11). *)
Definition new_iterator (m : positions) (head : ptr) : res iterator :=
  if negb (head =? null) then do q <- get_next m head; Ok (Iterator head q null)
  else Ok (Iterator head null null).

(** State::begin and State::end (state.cpp:134-140). *)
Definition state_begin (m : positions) (head : ptr) : res iterator := new_iterator m head.
Definition state_end (m : positions) : res iterator := new_iterator m null.

(** operator== (state_iterator.cpp:22-24). *)
Definition iterator_eq (a b : iterator) : bool :=
  (si_curr a =? si_curr b) && (si_next a =? si_next b).

(** advance, i.e. operator++ (state_iterator.cpp:45-55). *)
Definition iterator_next (m : positions) (it : iterator) : res iterator :=
  let prev := if negb (si_curr it =? null) then si_curr it else si_prev it in
  let curr := si_next it in
  if negb (si_next it =? null) then
    do q <- get_next m (si_next it); Ok (Iterator curr q prev)
  else Ok (Iterator curr (si_next it) prev).

(** insert (state_iterator.cpp:26-33). *)
Definition iterator_insert (fuel : nat) (m : positions) (head : ptr) (it : iterator) (p : ptr)
  : res (positions * ptr * iterator) :=
  do (m1, head1) <-
    (if negb (si_curr it =? null) then state_insert_after fuel m head (si_curr it) p
     else state_head m head p);
  Ok (m1, head1, Iterator (si_curr it) p (si_prev it)).

(** remove (state_iterator.cpp:35-43); also returns the outer iterator. *)
Definition iterator_remove (fuel : nat) (m : positions) (head : ptr) (it : iterator)
  (outer : option iterator) : res (positions * ptr * iterator * option iterator) :=
  if negb (si_curr it =? null) then
    do outer1 <-
      match outer with
      | Some o =>
          if si_next o =? si_curr it then
            do q <- get_next m (si_next o);
            Ok (Some (Iterator (si_curr o) q (si_prev o)))
          else Ok outer
      | None => Ok None
      end;
    do (m1, head1) <- state_remove fuel m head (si_prev it) (si_curr it);
    Ok (m1, head1, Iterator null (si_next it) (si_prev it), outer1)
  else Ok (m, head, it, outer).

(** ** merge.cpp *)

(** insert_after (merge.cpp:8-15), not to be confused with State::insert_after. *)
Definition insert_after (fuel : nat) (m : positions) (head curr next : ptr)
  : res (positions * ptr) :=
  if curr =? null then state_head m head next
  else state_insert_after fuel m head curr next.

(** The while loop (merge.cpp:28-41, :71-84, :119-132): the iterator where it
    stops and [p]. *)
Fixpoint merge_walk (fuel : nat) (alg : algorithm) (m : positions) (a : position)
         (iter iter_end : iterator) (p : ptr) : res (iterator * ptr) :=
  match fuel with
  | O => OOF
  | S fuel' =>
      if negb (iterator_eq iter iter_end) then
        do b <- get_pos m (si_curr iter);
        if merge_before alg a b then
          do iter1 <- iterator_next m iter;
          merge_walk fuel' alg m a iter1 iter_end (si_curr iter)
        else Ok (iter, p)
      else Ok (iter, p)
  end.

(** One iteration of the outer loop (merge.cpp:20-56, :62-104, :110-152).  The
    [++iter] after the walk in the latter two moves an iterator that is not used
    again. *)
Definition merge_position (fuel : nat) (alg : algorithm) (m : positions) (head a : ptr)
  : res (positions * ptr) :=
  do x <- get_pos m a;
  do iter0 <- state_begin m head;
  do iter_end <- state_end m;
  do (iter, p) <- merge_walk fuel alg m x iter0 iter_end null;
  if negb (iterator_eq iter iter_end) then
    do b <- get_pos m (si_curr iter);
    do _ <- match alg with STANDARD => Ok iter | _ => iterator_next m iter end;
    if negb (merge_same alg x b) then insert_after fuel m head p a
    else do m1 <- delete_position fuel m a; Ok (m1, head)
  else insert_after fuel m head p a.

(** merge<...>(state, positions) *)
Fixpoint merge_all (fuel : nat) (alg : algorithm) (m : positions) (head : ptr) (ps : list ptr)
  : res (positions * ptr) :=
  match ps with
  | [] => Ok (m, head)
  | a :: ps' =>
      do (m1, head1) <- merge_position fuel alg m head a;
      merge_all fuel alg m1 head1 ps'
  end.

(** ** unsubsume.cpp *)

(** The first inner loop (unsubsume.cpp:20-26). *)
Fixpoint skip_walk (fuel : nat) (m : positions) (outer_errors : N) (inner iter_end : iterator)
  : res iterator :=
  match fuel with
  | O => OOF
  | S fuel' =>
      if negb (iterator_eq inner iter_end) then
        do y <- get_pos m (si_curr inner);
        if outer_errors <? ne y then Ok inner
        else do inner1 <- iterator_next m inner; skip_walk fuel' m outer_errors inner1 iter_end
      else Ok inner
  end.

(** The second inner loop (unsubsume.cpp:28-34). *)
Fixpoint remove_walk (fuel : nat) (alg : algorithm) (n : N) (m : positions) (head outer : ptr)
         (outer_iter inner iter_end : iterator) : res (positions * ptr * iterator) :=
  match fuel with
  | O => OOF
  | S fuel' =>
      if negb (iterator_eq inner iter_end) then
        do x <- get_pos m outer;
        do y <- get_pos m (si_curr inner);
        if subsumes alg x y n then
          do (m1, head1, inner1, o1) <- iterator_remove fuel m head inner (Some outer_iter);
          do outer1 <- deref o1;
          do inner2 <- iterator_next m1 inner1;
          remove_walk fuel' alg n m1 head1 outer outer1 inner2 iter_end
        else
          do inner1 <- iterator_next m inner;
          remove_walk fuel' alg n m head outer outer_iter inner1 iter_end
      else Ok (m, head, outer_iter)
  end.

(** The outer loop (unsubsume.cpp:13-37). *)
Fixpoint unsubsume_walk (fuel : nat) (alg : algorithm) (n : N) (m : positions) (head : ptr)
         (outer_iter iter_end : iterator) : res (positions * ptr) :=
  match fuel with
  | O => OOF
  | S fuel' =>
      if negb (iterator_eq outer_iter iter_end) then
        let outer := si_curr outer_iter in
        do x <- get_pos m outer;
        do inner0 <- new_iterator m outer;
        do inner1 <- iterator_next m inner0;
        do inner2 <- skip_walk fuel m (ne x) inner1 iter_end;
        do (m1, head1, outer1) <- remove_walk fuel alg n m head outer outer_iter inner2 iter_end;
        do outer2 <- iterator_next m1 outer1;
        unsubsume_walk fuel' alg n m1 head1 outer2 iter_end
      else Ok (m, head)
  end.

(** UnsubsumeFn::operator() (unsubsume.cpp:10-38). *)
Definition unsubsume_pointers (fuel : nat) (alg : algorithm) (n : N) (m : positions) (head : ptr)
  : res (positions * ptr) :=
  do outer_iter <- state_begin m head;
  do iter_end <- state_end m;
  unsubsume_walk fuel alg n m head outer_iter iter_end.

(** ** state_transition.cpp *)

(** The positions a position_transition allocates, in the order of the braced
    list it returns (position_transition.cpp:16-341). *)
Fixpoint new_positions (alloc : positions -> ptr) (m : positions) (xs : list position)
  : positions * list ptr :=
  match xs with
  | [] => (m, [])
  | x :: xs' =>
      let (p, m1) := new_position alloc m x in
      let (m2, ps) := new_positions alloc m1 xs' in
      (m2, p :: ps)
  end.

Definition transition_pointers (alloc : positions -> ptr) (alg : algorithm) (n : N)
  (m : positions) (p : ptr) (cv : list bool) (offset : N) : res (positions * list ptr) :=
  do x <- get_pos m p;
  do xs <- position_transition alg n x cv offset;
  Ok (new_positions alloc m xs).

(** The range-for loop over the positions of the current state
    (state_transition.cpp:24-26). *)
Fixpoint transition_walk (fuel : nat) (alloc : positions -> ptr) (alg : algorithm) (n : N)
         (cv : list bool) (offset : N) (m : positions) (head : ptr) (iter iter_end : iterator)
  : res (positions * ptr) :=
  match fuel with
  | O => OOF
  | S fuel' =>
      if negb (iterator_eq iter iter_end) then
        do (m1, ps) <- transition_pointers alloc alg n m (si_curr iter) cv offset;
        do (m2, head1) <- merge_all fuel alg m1 head ps;
        do iter1 <- iterator_next m2 iter;
        transition_walk fuel' alloc alg n cv offset m2 head1 iter1 iter_end
      else Ok (m, head)
  end.

(** The State objects: their [_head]. *)
Definition states := mem ptr.

(** StateTransition::operator() (state_transition.cpp:17-37); the result is the
    new State or nullptr. *)
Definition state_transition_pointers (fuel : nat) (palloc : positions -> ptr)
  (salloc : states -> ptr) (order : positions -> ptr -> bool) (alg : algorithm)
  (max_distance query_length : N) (m : positions) (ss : states) (curr_state : ptr)
  (cv : list bool) : res (positions * states * ptr) :=
  do curr_head <- mread ss curr_state;
  do x <- get_pos m curr_head;
  let (next_state, ss1) := mnew salloc ss null in
  do iter <- state_begin m curr_head;
  do iter_end <- state_end m;
  do (m1, head1) <- transition_walk fuel palloc alg max_distance cv (ti x) m null iter iter_end;
  do (m2, head2) <- unsubsume_pointers fuel alg query_length m1 head1;
  if negb (head2 =? null) then
    do (m3, head3) <- state_sort fuel order (compare alg) m2 head2;
    do ss2 <- mwrite ss1 next_state head3;
    Ok (m3, ss2, next_state)
  else
    do m3 <- destroy_state fuel m2 head2;
    do ss2 <- mfree ss1 next_state;
    Ok (m3, ss2, null).

(** distance<...>(state, query_length) (distance.cpp:9-22, :24-39, :41-57). *)
Fixpoint distance_walk (fuel : nat) (alg : algorithm) (query_length : N) (m : positions)
         (iter iter_end : iterator) (min : N) : res N :=
  match fuel with
  | O => OOF
  | S fuel' =>
      if negb (iterator_eq iter iter_end) then
        do p <- get_pos m (si_curr iter);
        let considered := match alg with STANDARD => true | _ => negb (sp p) end in
        let d := wadd (wsub query_length (ti p)) (ne p) in
        do iter1 <- iterator_next m iter;
        distance_walk fuel' alg query_length m iter1 iter_end
          (if considered && (d <? min) then d else min)
      else Ok min
  end.

Definition distance_pointers (fuel : nat) (alg : algorithm) (m : positions) (head : ptr)
  (query_length : N) : res N :=
  do iter <- state_begin m head;
  do iter_end <- state_end m;
  distance_walk fuel alg query_length m iter iter_end SIZE_MAX.

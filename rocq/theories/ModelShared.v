(** * ModelShared: queries as programs of single memory accesses.

    The functions of ModelState and ModelMemory take a memory and return one, so
    they describe a program that has the memory to itself.  Here the same
    functions are programs: trees whose nodes are the accesses to memory, one
    object at a time.  Threads that run such programs take turns after every
    access.  SharedProofs shows that a program that runs alone does what the
    function of ModelState or ModelMemory with the same name does.

    What a query keeps in its own members (_pending, _edges, ...) and in local
    variables is no object that another thread could reach, and is part of the
    program. *)
From Verif Require Import Base Spec ModelTransducer ModelDawg ModelQuery ModelState ModelMemory SpecMemory.
Local Open Scope N_scope.

(** ** The accesses *)

(** The classes whose objects are allocated with [new]. *)
Inductive class := OfPosition | OfState | OfIntersection.
Definition object (c : class) : Type :=
  match c with OfPosition => cell | OfState => ptr | OfIntersection => icell end.

(** The objects of a class; replacing them. *)
Definition part (w : world) (c : class) : mem (object c) :=
  match c with OfPosition => w_pos w | OfState => w_st w | OfIntersection => w_int w end.
Definition with_part (w : world) (c : class) : mem (object c) -> world :=
  match c return mem (object c) -> world with
  | OfPosition => fun m => World m (w_st w) (w_int w)
  | OfState => fun m => World (w_pos w) m (w_int w)
  | OfIntersection => fun m => World (w_pos w) (w_st w) m
  end.

(** Programs with a result.  [Undefined] is undefined behaviour, [NoFuel] a loop
    that has been cut off (see OOF).  The nodes of the dictionary are only ever
    read.  [Choose] writes a position and then makes the choice that C++ leaves
    open in State::merge_sort: this needs no memory, so nothing is lost by making
    it at the same time as the access before it. *)
Inductive program (A : Type) : Type :=
| Return (x : A)
| Undefined
| NoFuel
| Read (c : class) (p : ptr) (k : object c -> program A)
| Write (c : class) (p : ptr) (x : object c) (k : program A)
| New (c : class) (x : object c) (k : ptr -> program A)
| Free (c : class) (p : ptr) (k : program A)
| ReadNode (p : ptr) (k : node -> program A)
| Choose (p : ptr) (x : cell) (arg : ptr) (k : bool -> program A).
Arguments Return {A}. Arguments Undefined {A}. Arguments NoFuel {A}. Arguments Read {A}. Arguments Write {A}.
Arguments New {A}. Arguments Free {A}. Arguments ReadNode {A}. Arguments Choose {A}.

Fixpoint bind {A B : Type} (p : program A) (f : A -> program B) : program B :=
  match p with
  | Return x => f x
  | Undefined => Undefined
  | NoFuel => NoFuel
  | Read c a k => Read c a (fun x => bind (k x) f)
  | Write c a x k => Write c a x (bind k f)
  | New c x k => New c x (fun a => bind (k a) f)
  | Free c a k => Free c a (bind k f)
  | ReadNode a k => ReadNode a (fun x => bind (k x) f)
  | Choose a x b k => Choose a x b (fun o => bind (k o) f)
  end.

Notation "'let!' x := p 'in' f" := (bind p (fun x => f))
  (at level 60, x pattern, p at level 200, f at level 200, right associativity).

(** A computation without access to memory. *)
Definition lift {A : Type} (r : res A) : program A :=
  match r with Ok x => Return x | UB => Undefined | OOF => NoFuel end.

(** ** A program that runs alone

    [al] decides which addresses [new] returns, [order] makes the choices. *)
Section Alone.
  Variables (al : allocators) (order : positions -> ptr -> bool) (h : heap).

  Definition alloc (c : class) : mem (object c) -> ptr :=
    match c return mem (object c) -> ptr with
    | OfPosition => a_pos al | OfState => a_st al | OfIntersection => a_int al
    end.

  Fixpoint alone {A : Type} (p : program A) (w : world) : res (world * A) :=
    match p with
    | Return x => Ok (w, x)
    | Undefined => UB
    | NoFuel => OOF
    | Read c a k => do x <- mread (part w c) a; alone (k x) w
    | Write c a x k => do m <- mwrite (part w c) a x; alone k (with_part w c m)
    | New c x k => let a := alloc c (part w c) in alone (k a) (with_part w c (mset (part w c) a x))
    | Free c a k => do m <- mfree (part w c) a; alone k (with_part w c m)
    | ReadNode a k => do n <- read h a; alone (k n) w
    | Choose a x b k =>
        do m <- mwrite (w_pos w) a x; alone (k (order m b)) (World m (w_st w) (w_int w))
    end.
End Alone.

(** ** Programs that share memory

    What the next access of a program does to a memory: [new] returns any
    non-null address that is free at the moment, choices are arbitrary. *)
Definition after {A : Type} {B : Type} (r : res B) (p : B -> program A) (m : B -> world) (w : world)
  : program A * world :=
  match r with Ok x => (p x, m x) | UB => (Undefined, w) | OOF => (NoFuel, w) end.

Inductive access {A : Type} (h : heap) : program A -> world -> program A * world -> Prop :=
| access_read : forall c a k w, access h (Read c a k) w (after (mread (part w c) a) k (fun _ => w) w)
| access_write : forall c a x k w,
    access h (Write c a x k) w (after (mwrite (part w c) a x) (fun _ => k) (with_part w c) w)
| access_new : forall c x k w a, a <> null -> mget (part w c) a = None ->
    access h (New c x k) w (k a, with_part w c (mset (part w c) a x))
| access_free : forall c a k w,
    access h (Free c a k) w (after (mfree (part w c) a) (fun _ => k) (with_part w c) w)
| access_node : forall a k w, access h (ReadNode a k) w (after (read h a) k (fun _ => w) w)
| access_choose : forall a x b k w o,
    access h (Choose a x b k) w
      (after (mwrite (w_pos w) a x) (fun _ => k o) (fun m => World m (w_st w) (w_int w)) w).

(** One access of one of the programs; any number of them. *)
Inductive turn {A : Type} (h : heap) : world * list (program A) -> world * list (program A) -> Prop :=
| one_turn : forall w before p after p' w', access h p w (p', w') ->
    turn h (w, before ++ p :: after) (w', before ++ p' :: after).

Inductive turns {A : Type} (h : heap) : world * list (program A) -> world * list (program A) -> Prop :=
| no_turn : forall s, turns h s s
| more_turns : forall s s' s'', turns h s s' -> turn h s' s'' -> turns h s s''.

(** ** The functions of ModelState *)

(** Position::next() and Position::next(Position* ) (position.cpp:15-21).  The
    latter reads the object and writes it back with the new pointer. *)
Definition p_get_next (p : ptr) : program ptr := Read OfPosition p (fun c => Return (c_next c)).
Definition p_set_next (p q : ptr) : program unit :=
  Read OfPosition p (fun c => Write OfPosition p (Cell (c_pos c) q) (Return tt)).

(** term_index, num_errors, is_special (position.cpp:23-33). *)
Definition p_get_pos (p : ptr) : program position := Read OfPosition p (fun c => Return (c_pos c)).

(** [new Position(...)] (position.cpp:5-9). *)
Definition p_new_position (x : position) : program ptr := New OfPosition (Cell x null) Return.

(** [delete p] (position.cpp:11-13). *)
Fixpoint p_delete_position (fuel : nat) (p : ptr) : program unit :=
  match fuel with
  | O => NoFuel
  | S fuel' =>
      if p =? null then Return tt
      else
        let! q := p_get_next p in
        let! _ := p_delete_position fuel' q in
        Free OfPosition p (Return tt)
  end.

(** State::head(Position* ) (state.cpp:26-29): returns the new [_head]. *)
Definition p_state_head (head p : ptr) : program ptr := let! _ := p_set_next p head in Return p.

(** State::add (state.cpp:35-46). *)
Fixpoint p_last_position (fuel : nat) (curr : ptr) : program ptr :=
  match fuel with
  | O => NoFuel
  | S fuel' =>
      let! next := p_get_next curr in
      if next =? null then Return curr else p_last_position fuel' next
  end.
Definition p_state_add (fuel : nat) (head next : ptr) : program ptr :=
  if head =? null then Return next
  else
    let! curr := p_last_position fuel head in
    let! _ := p_set_next curr next in
    Return head.

(** State::insert_after (state.cpp:48-56). *)
Definition p_state_insert_after (fuel : nat) (head curr next : ptr) : program ptr :=
  if negb (curr =? null) then
    let! q := p_get_next curr in
    let! _ := p_set_next next q in
    let! _ := p_set_next curr next in
    Return head
  else p_state_add fuel head next.

(** State::remove (state.cpp:58-71). *)
Definition p_state_remove (fuel : nat) (head prev curr : ptr) : program ptr :=
  let! (temp, head1) :=
    (if negb (prev =? null) then
       let! temp := p_get_next prev in
       let! q := p_get_next curr in
       let! _ := p_set_next prev q in
       Return (temp, head)
     else
       let! q := p_get_next head in
       Return (head, q)) in
  let! _ := p_set_next temp null in
  let! _ := p_delete_position fuel temp in
  Return head1.

(** State::find_middle (state.cpp:118-128). *)
Fixpoint p_find_middle (fuel : nat) (slow fast : ptr) : program ptr :=
  match fuel with
  | O => NoFuel
  | S fuel' =>
      let! f1 := p_get_next fast in
      if f1 =? null then Return slow
      else
        let! f2 := p_get_next f1 in
        if f2 =? null then Return slow
        else let! s1 := p_get_next slow in p_find_middle fuel' s1 f2
  end.

(** State::merge (state.cpp:88-116). *)
Definition p_link (first : ptr) (curr : option ptr) (p : ptr) : program ptr :=
  match curr with
  | None => Return p
  | Some c => let! _ := p_set_next c p in Return first
  end.
Fixpoint p_merge_pointers (fuel : nat) (cmp : position -> position -> Z)
         (first : ptr) (curr : option ptr) (lower upper : ptr) : program ptr :=
  match fuel with
  | O => NoFuel
  | S fuel' =>
      if negb (lower =? null) && negb (upper =? null) then
        let! x := p_get_pos lower in
        let! y := p_get_pos upper in
        if (cmp x y <? 1)%Z then
          let! first1 := p_link first curr lower in
          let! lower1 := p_get_next lower in
          p_merge_pointers fuel' cmp first1 (Some lower) lower1 upper
        else
          let! first1 := p_link first curr upper in
          let! upper1 := p_get_next upper in
          p_merge_pointers fuel' cmp first1 (Some upper) lower upper1
      else if negb (upper =? null) then p_link first curr upper
      else if negb (lower =? null) then p_link first curr lower
      else Return first
  end.

(** State::merge_sort (state.cpp:73-86), State::sort (state.cpp:130-132). *)
Definition p_cut (middle lower : ptr) : program bool :=
  Read OfPosition middle (fun c => Choose middle (Cell (c_pos c) null) lower Return).
Fixpoint p_sort_pointers (fuel : nat) (cmp : position -> position -> Z) (lower : ptr) : program ptr :=
  match fuel with
  | O => NoFuel
  | S fuel' =>
      if lower =? null then Return lower
      else
        let! next := p_get_next lower in
        if next =? null then Return lower
        else
          let! middle := p_find_middle fuel lower lower in
          let! upper := p_get_next middle in
          let! lower_first := p_cut middle lower in
          let! (a, b) :=
            (if (lower_first : bool) then
               let! a := p_sort_pointers fuel' cmp lower in
               let! b := p_sort_pointers fuel' cmp upper in
               Return (a, b)
             else
               let! b := p_sort_pointers fuel' cmp upper in
               let! a := p_sort_pointers fuel' cmp lower in
               Return (a, b)) in
          p_merge_pointers fuel cmp null None a b
  end.

(** StateIterator (state_iterator.cpp:6-55). *)
Definition p_new_iterator (head : ptr) : program iterator :=
  if negb (head =? null) then let! q := p_get_next head in Return (Iterator head q null)
  else Return (Iterator head null null).
Definition p_iterator_next (it : iterator) : program iterator :=
  let prev := if negb (si_curr it =? null) then si_curr it else si_prev it in
  let curr := si_next it in
  if negb (si_next it =? null) then
    let! q := p_get_next (si_next it) in Return (Iterator curr q prev)
  else Return (Iterator curr (si_next it) prev).
Definition p_iterator_remove (fuel : nat) (head : ptr) (it : iterator) (outer : option iterator)
  : program (ptr * iterator * option iterator) :=
  if negb (si_curr it =? null) then
    let! outer1 :=
      match outer with
      | Some o =>
          if si_next o =? si_curr it then
            let! q := p_get_next (si_next o) in
            Return (Some (Iterator (si_curr o) q (si_prev o)))
          else Return outer
      | None => Return None
      end in
    let! head1 := p_state_remove fuel head (si_prev it) (si_curr it) in
    Return (head1, Iterator null (si_next it) (si_prev it), outer1)
  else Return (head, it, outer).

(** insert_after and merge (merge.cpp:8-15, :20-152). *)
Definition p_insert_after (fuel : nat) (head curr next : ptr) : program ptr :=
  if curr =? null then p_state_head head next
  else p_state_insert_after fuel head curr next.
Fixpoint p_merge_walk (fuel : nat) (alg : algorithm) (a : position)
         (iter iter_end : iterator) (p : ptr) : program (iterator * ptr) :=
  match fuel with
  | O => NoFuel
  | S fuel' =>
      if negb (iterator_eq iter iter_end) then
        let! b := p_get_pos (si_curr iter) in
        if merge_before alg a b then
          let! iter1 := p_iterator_next iter in
          p_merge_walk fuel' alg a iter1 iter_end (si_curr iter)
        else Return (iter, p)
      else Return (iter, p)
  end.
Definition p_merge_position (fuel : nat) (alg : algorithm) (head a : ptr) : program ptr :=
  let! x := p_get_pos a in
  let! iter0 := p_new_iterator head in
  let! iter_end := p_new_iterator null in
  let! (iter, p) := p_merge_walk fuel alg x iter0 iter_end null in
  if negb (iterator_eq iter iter_end) then
    let! b := p_get_pos (si_curr iter) in
    let! _ := match alg with STANDARD => Return iter | _ => p_iterator_next iter end in
    if negb (merge_same alg x b) then p_insert_after fuel head p a
    else let! _ := p_delete_position fuel a in Return head
  else p_insert_after fuel head p a.
Fixpoint p_merge_all (fuel : nat) (alg : algorithm) (head : ptr) (ps : list ptr) : program ptr :=
  match ps with
  | [] => Return head
  | a :: ps' =>
      let! head1 := p_merge_position fuel alg head a in
      p_merge_all fuel alg head1 ps'
  end.

(** UnsubsumeFn::operator() (unsubsume.cpp:10-38). *)
Fixpoint p_skip_walk (fuel : nat) (outer_errors : N) (inner iter_end : iterator) : program iterator :=
  match fuel with
  | O => NoFuel
  | S fuel' =>
      if negb (iterator_eq inner iter_end) then
        let! y := p_get_pos (si_curr inner) in
        if outer_errors <? ne y then Return inner
        else let! inner1 := p_iterator_next inner in p_skip_walk fuel' outer_errors inner1 iter_end
      else Return inner
  end.
Fixpoint p_remove_walk (fuel : nat) (alg : algorithm) (n : N) (head outer : ptr)
         (outer_iter inner iter_end : iterator) : program (ptr * iterator) :=
  match fuel with
  | O => NoFuel
  | S fuel' =>
      if negb (iterator_eq inner iter_end) then
        let! x := p_get_pos outer in
        let! y := p_get_pos (si_curr inner) in
        if subsumes alg x y n then
          let! (head1, inner1, o1) := p_iterator_remove fuel head inner (Some outer_iter) in
          let! outer1 := lift (deref o1) in
          let! inner2 := p_iterator_next inner1 in
          p_remove_walk fuel' alg n head1 outer outer1 inner2 iter_end
        else
          let! inner1 := p_iterator_next inner in
          p_remove_walk fuel' alg n head outer outer_iter inner1 iter_end
      else Return (head, outer_iter)
  end.
Fixpoint p_unsubsume_walk (fuel : nat) (alg : algorithm) (n : N) (head : ptr)
         (outer_iter iter_end : iterator) : program ptr :=
  match fuel with
  | O => NoFuel
  | S fuel' =>
      if negb (iterator_eq outer_iter iter_end) then
        let outer := si_curr outer_iter in
        let! x := p_get_pos outer in
        let! inner0 := p_new_iterator outer in
        let! inner1 := p_iterator_next inner0 in
        let! inner2 := p_skip_walk fuel (ne x) inner1 iter_end in
        let! (head1, outer1) := p_remove_walk fuel alg n head outer outer_iter inner2 iter_end in
        let! outer2 := p_iterator_next outer1 in
        p_unsubsume_walk fuel' alg n head1 outer2 iter_end
      else Return head
  end.
Definition p_unsubsume_pointers (fuel : nat) (alg : algorithm) (n : N) (head : ptr) : program ptr :=
  let! outer_iter := p_new_iterator head in
  let! iter_end := p_new_iterator null in
  p_unsubsume_walk fuel alg n head outer_iter iter_end.

(** position_transition (position_transition.cpp:16-341). *)
Fixpoint p_new_positions (xs : list position) : program (list ptr) :=
  match xs with
  | [] => Return []
  | x :: xs' =>
      let! p := p_new_position x in
      let! ps := p_new_positions xs' in
      Return (p :: ps)
  end.
Definition p_transition_pointers (alg : algorithm) (n : N) (p : ptr) (cv : list bool) (offset : N)
  : program (list ptr) :=
  let! x := p_get_pos p in
  let! xs := lift (position_transition alg n x cv offset) in
  p_new_positions xs.

(** StateTransition::operator() (state_transition.cpp:17-37). *)
Fixpoint p_transition_walk (fuel : nat) (alg : algorithm) (n : N) (cv : list bool) (offset : N)
         (head : ptr) (iter iter_end : iterator) : program ptr :=
  match fuel with
  | O => NoFuel
  | S fuel' =>
      if negb (iterator_eq iter iter_end) then
        let! ps := p_transition_pointers alg n (si_curr iter) cv offset in
        let! head1 := p_merge_all fuel alg head ps in
        let! iter1 := p_iterator_next iter in
        p_transition_walk fuel' alg n cv offset head1 iter1 iter_end
      else Return head
  end.
Definition p_state_transition (fuel : nat) (alg : algorithm) (max_distance query_length : N)
  (curr_state : ptr) (cv : list bool) : program ptr :=
  let! curr_head := Read OfState curr_state Return in
  let! x := p_get_pos curr_head in
  let! next_state := New OfState null Return in
  let! iter := p_new_iterator curr_head in
  let! iter_end := p_new_iterator null in
  let! head1 := p_transition_walk fuel alg max_distance cv (ti x) null iter iter_end in
  let! head2 := p_unsubsume_pointers fuel alg query_length head1 in
  if negb (head2 =? null) then
    let! head3 := p_sort_pointers fuel (compare alg) head2 in
    Write OfState next_state head3 (Return next_state)
  else
    let! _ := p_delete_position fuel head2 in
    Free OfState next_state (Return null).

(** distance<...>(state, query_length) (distance.cpp:9-57). *)
Fixpoint p_distance_walk (fuel : nat) (alg : algorithm) (query_length : N)
         (iter iter_end : iterator) (min : N) : program N :=
  match fuel with
  | O => NoFuel
  | S fuel' =>
      if negb (iterator_eq iter iter_end) then
        let! p := p_get_pos (si_curr iter) in
        let considered := match alg with STANDARD => true | _ => negb (sp p) end in
        let d := wadd (wsub query_length (ti p)) (ne p) in
        let! iter1 := p_iterator_next iter in
        p_distance_walk fuel' alg query_length iter1 iter_end
          (if considered && (d <? min) then d else min)
      else Return min
  end.
Definition p_distance (fuel : nat) (alg : algorithm) (head : ptr) (query_length : N) : program N :=
  let! iter := p_new_iterator head in
  let! iter_end := p_new_iterator null in
  p_distance_walk fuel alg query_length iter iter_end SIZE_MAX.

(** ** The functions of ModelMemory *)

(** [delete state] (state.cpp:22-24), [delete intersection]
    (intersection.cpp:13-15), the loop of LazyQuery::~LazyQuery
    (lazy_query.cpp:27-31). *)
Definition p_delete_state (fuel : nat) (s : ptr) : program unit :=
  if s =? null then Return tt
  else
    let! head := Read OfState s Return in
    let! _ := p_delete_position fuel head in
    Free OfState s (Return tt).
Definition p_delete_intersection (fuel : nat) (p : ptr) : program unit :=
  if p =? null then Return tt
  else
    let! x := Read OfIntersection p Return in
    let! _ := p_delete_state fuel (ic_state x) in
    Free OfIntersection p (Return tt).
Fixpoint p_delete_intersections (fuel : nat) (ps : list ptr) : program unit :=
  match ps with
  | [] => Return tt
  | p :: ps' => let! _ := p_delete_intersection fuel p in p_delete_intersections fuel ps'
  end.

(** Intersection::str (intersection.cpp:25-37). *)
Fixpoint p_intersection_str (fuel : nat) (p : ptr) : program str :=
  match fuel with
  | O => NoFuel
  | S fuel' =>
      let! x := Read OfIntersection p Return in
      if negb (ic_parent x =? null) then
        let! s := p_intersection_str fuel' (ic_parent x) in
        Return (s ++ [ic_label x])
      else Return []
  end.

Section LazyQuery.
  Context {R : Type} (rt : result_type R).
  Variables (fuel : nat) (alg : algorithm) (term : str) (max_distance : N).

  Let len := N.of_nat (length term).

  (** One iteration of the do-while loop (lazy_query.cpp:37-70). *)
  Definition p_lazy_step (q : lazy_query R) : program (bool * lazy_query R) :=
    match l_edges q with
    | [] =>
        match l_pending q with
        | [] => Undefined
        | p :: rest =>
            let! x := Read OfIntersection p Return in
            let! head := Read OfState (ic_state x) Return in
            let! pos := p_get_pos head in
            let! n := ReadNode (ic_node x) Return in
            Return (false, LazyQuery rest (nedges n) (l_intersections q) (l_complete q) p (l_candidate q)
                             (query_k (query_a max_distance) len (ti pos)) (ti pos))
        end
    | (label, next) :: edges =>
        let! x := Read OfIntersection (l_current q) Return in
        let! cv := lift (characteristic_vector label term (l_k q) (l_i q)) in
        let! next_state := p_state_transition fuel alg max_distance len (ic_state x) cv in
        if negb (next_state =? null) then
          let! y := New OfIntersection (ICell label next next_state (l_current q)) Return in
          let owned := l_intersections q ++ [y] in
          let pending := l_pending q ++ [y] in
          let go_on := Return (false, LazyQuery pending edges owned (l_complete q) (l_current q)
                                        (l_candidate q) (l_k q) (l_i q)) in
          let! n := ReadNode next Return in
          if nfin n then
            let! head := Read OfState next_state Return in
            let! d := p_distance fuel alg head len in
            if d <=? max_distance then
              let! s := p_intersection_str fuel y in
              Return (true, LazyQuery pending edges owned false (l_current q) (r_update rt s d) (l_k q) (l_i q))
            else go_on
          else go_on
        else
          Return (false, LazyQuery (l_pending q) edges (l_intersections q) (l_complete q) (l_current q)
                           (l_candidate q) (l_k q) (l_i q))
    end.

  (** LazyQuery::advance (lazy_query.cpp:33-76) and operator++ (:86-90). *)
  Fixpoint p_lazy_loop (rounds : nat) (q : lazy_query R) : program (lazy_query R) :=
    match rounds with
    | O => NoFuel
    | S rounds' =>
        let! (broke, q') := p_lazy_step q in
        if (broke : bool) then Return q'
        else if lazy_work q' then p_lazy_loop rounds' q' else Return q'
    end.
  Definition p_lazy_advance (q : lazy_query R) : program (lazy_query R) :=
    if lazy_work q then p_lazy_loop fuel (lazy_complete q)
    else Return (lazy_complete q).

  (** LazyQuery::LazyQuery (lazy_query.cpp:8-25), LazyIterator::begin (:145-149). *)
  Definition p_lazy_begin (t : ptr) : program (lazy_query R) :=
    let! x := Read OfIntersection t Return in
    let! n := ReadNode (ic_node x) Return in
    if nfin n && (len <=? max_distance) then
      Return (LazyQuery [t] [] [] false null (r_update rt [] len) 0 0)
    else p_lazy_advance (LazyQuery [t] [] [] false null (r_default rt) 0 0).
End LazyQuery.

(** ** What a thread does with a transducer

    See [run_one] and [run] in SpecMemory: queries are begun, incremented and
    destroyed as the commands say. *)
Section Thread.
  Context {R : Type} (rt : result_type R).
  Variables (fuel : nat) (alg : algorithm) (t : ptr).

  Definition p_run_one (c : command) (ss : list (slot (R := R))) : program (list (slot (R := R))) :=
    match c with
    | Open q n =>
        let! it := p_lazy_begin rt fuel alg q n t in
        Return (ss ++ [Some (q, n, O, it)])
    | Increment i =>
        match nth_error ss i with
        | Some (Some (q, n, k, it)) =>
            let! it1 := p_lazy_advance rt fuel alg q n it in
            Return (put ss i (Some (q, n, S k, it1)))
        | _ => Return ss
        end
    | Close i =>
        match nth_error ss i with
        | Some (Some (q, n, k, it)) =>
            let! _ := p_delete_intersections fuel (l_intersections it) in
            Return (put ss i None)
        | _ => Return ss
        end
    end.

  Fixpoint p_run (cs : list command) (ss : list (slot (R := R))) : program (list (slot (R := R))) :=
    match cs with
    | [] => Return ss
    | c :: cs' => let! ss1 := p_run_one c ss in p_run cs' ss1
    end.
End Thread.

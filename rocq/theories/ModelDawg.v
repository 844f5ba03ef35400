(** * ModelDawg: nodes in memory, Dawg, DawgIterator, SortedDawg. *)
From Verif Require Import Base ModelHash.

(** ** Memory

    A pointer to a node is its address; [null] is nullptr.  The heap is the
    history of the changes of memory, the latest one first: a node was written at
    an address, or the node there was freed.  It is one heap for all dictionaries
    of the program.  [hget] of an address that was never allocated or has been
    freed is [None]. *)
Definition ptr := N.
Definition null : ptr := 0%N.

(** DawgNode (dawg_node.h:109-116): [_is_final] and [_edges], a
    std::map<char, DawgNode*>, i.e. a list of pairs in ascending order of the
    (signed) label. *)
Record node := Node { nfin : bool; nedges : list (char * ptr) }.

Definition heap := list (ptr * option node).

Fixpoint hget (h : heap) (p : ptr) : option node :=
  match h with
  | [] => None
  | (q, n) :: h' => if N.eqb p q then n else hget h' p
  end.

Definition hdel (h : heap) (p : ptr) : heap := (p, None) :: h.

Definition hset (h : heap) (p : ptr) (n : node) : heap := (p, Some n) :: h.

(** Dereferencing a node pointer: null and dangling pointers are UB. *)
Definition read (h : heap) (p : ptr) : res node :=
  if N.eqb p null then UB else deref (hget h p).

(** [delete p]: nothing for nullptr, UB unless [p] is allocated. *)
Definition delete (h : heap) (p : ptr) : res heap :=
  if N.eqb p null then Ok h
  else match hget h p with
       | Some _ => Ok (hdel h p)
       | None => UB
       end.

(** [operator new]: any function that returns a non-null address that is not
    currently in use.  It may depend on everything that happened before.  Freed
    addresses may be handed out again. *)
Definition allocator (alloc : heap -> ptr) : Prop :=
  forall h, alloc h <> null /\ hget h (alloc h) = None.

(** [new DawgNode(is_final)] (dawg_node.cpp:15-17). *)
Definition new_node (alloc : heap -> ptr) (h : heap) (fin : bool) : ptr * heap :=
  let p := alloc h in (p, hset h p (Node fin [])).

(** ** DawgNode *)

(** std::map::find on the edges. *)
Fixpoint edge_get {A : Type} (es : list (char * A)) (c : char) : option A :=
  match es with
  | [] => None
  | (d, q) :: es' => if ceqb c d then Some q else edge_get es' c
  end.

(** std::map::operator[] with assignment: replaces the value of an existing
    key, or inserts the key at its place in the (signed char) order. *)
Fixpoint edge_set {A : Type} (es : list (char * A)) (c : char) (q : A) : list (char * A) :=
  match es with
  | [] => [(c, q)]
  | (d, r) :: es' =>
      if ceqb c d then (c, q) :: es'
      else if (schar c <? schar d)%Z then (c, q) :: (d, r) :: es'
      else (d, r) :: edge_set es' c q
  end.

(** DawgNode::transition (dawg_node.cpp:33-39). *)
Definition transition (n : node) (c : char) : ptr :=
  match edge_get (nedges n) c with
  | Some q => q
  | None => null
  end.

(** DawgNode::is_final(bool) (dawg_node.cpp:19-21). *)
Definition set_final (h : heap) (p : ptr) (b : bool) : res heap :=
  do n <- read h p;
  Ok (hset h p (Node b (nedges n))).

(** DawgNode::add_edge (dawg_node.cpp:41-46): an existing target is deleted. *)
Definition add_edge (h : heap) (p : ptr) (c : char) (target : ptr) : res heap :=
  do n <- read h p;
  do h1 <- delete h (transition n c);
  do n1 <- read h1 p;
  Ok (hset h1 p (Node (nfin n1) (edge_set (nedges n1) c target))).

(** DawgNode::operator== (dawg_node.cpp:53-71): recursive comparison of the
    nodes' flags, numbers of edges and targets.  [a] is [*this]. *)
Fixpoint node_eq (fuel : nat) (h : heap) (a b : node) : res bool :=
  match fuel with
  | O => OOF
  | S fuel' =>
      if negb (Bool.eqb (nfin a) (nfin b)) then Ok false
      else if negb (Nat.eqb (length (nedges a)) (length (nedges b))) then Ok false
      else
        (fix each (es : list (char * ptr)) : res bool :=
           match es with
           | [] => Ok true
           | (c, expected) :: es' =>
               let actual := transition b c in
               if N.eqb actual null then Ok false
               else
                 do x <- read h expected;
                 do y <- read h actual;
                 do e <- node_eq fuel' h x y;
                 if e then each es' else Ok false
           end) (nedges a)
  end.

(** std::hash<DawgNode> (dawg_node.cpp:93-109). *)
Fixpoint node_hash (fuel : nat) (h : heap) (n : node) : res N :=
  match fuel with
  | O => OOF
  | S fuel' =>
      do code <-
        (fix each (es : list (char * ptr)) (code : N) : res N :=
           match es with
           | [] => Ok code
           | (c, target) :: es' =>
               let code := murmur_key (uchar c) code in
               do t <- read h target;
               do k <- node_hash fuel' h t;
               each es' (murmur_key k code)
           end) (nedges n) DEADBEEF;
      Ok (murmur_key (if nfin n then 1%N else 0%N) code)
  end.

(** ** Dawg *)

(** Dawg (dawg.h): root pointer and number of terms. *)
Record dawg := Dawg { d_root : ptr; d_size : N }.

(** Insertion into a std::unordered_set<DawgNode*>.  The model's sets list
    their elements in insertion order; the order is not observable below except
    as the order of deletions. *)
Definition set_mem (p : ptr) (s : list ptr) : bool := existsb (N.eqb p) s.
Definition set_insert (p : ptr) (s : list ptr) : list ptr :=
  if set_mem p s then s else s ++ [p].

(** Dawg::all_nodes (dawg.cpp:28-41): breadth-first over all paths (a node is
    visited once per path). *)
Fixpoint all_nodes_loop (fuel : nat) (h : heap) (pending nodes : list ptr)
  : res (list ptr) :=
  match fuel with
  | O => OOF
  | S fuel' =>
      match pending with
      | [] => Ok nodes
      | p :: pending' =>
          do n <- read h p;
          all_nodes_loop fuel' h (pending' ++ map snd (nedges n)) (set_insert p nodes)
      end
  end.

Definition all_nodes (fuel : nat) (h : heap) (d : dawg) : res (list ptr) :=
  all_nodes_loop fuel h [d_root d] [].

(** [for (DawgNode *node : nodes) delete node;] *)
Fixpoint delete_all (h : heap) (nodes : list ptr) : res heap :=
  match nodes with
  | [] => Ok h
  | p :: nodes' => do h' <- delete h p; delete_all h' nodes'
  end.

(** Dawg::~Dawg (dawg.cpp:22-26). *)
Definition destroy_dawg (fuel : nat) (h : heap) (d : dawg) : res heap :=
  do nodes <- all_nodes fuel h d;
  delete_all h nodes.

(** Dawg::contains (dawg.cpp:43-49).  [i] is the loop counter, an [int]
    compared with a [size_t]; incrementing it beyond INT_MAX is undefined. *)
Fixpoint contains_loop (h : heap) (p : ptr) (i : N) (term : str) : res ptr :=
  match term with
  | [] => Ok p
  | c :: term' =>
      if N.eqb p null then Ok p
      else
        do n <- read h p;
        if (i =? 2147483647)%N then UB
        else contains_loop h (transition n c) (i + 1)%N term'
  end.

Definition contains (h : heap) (d : dawg) (term : str) : res bool :=
  do p <- contains_loop h (d_root d) 0%N term;
  if N.eqb p null then Ok false
  else do n <- read h p; Ok (nfin n).

(** Dawg::operator== (dawg.cpp:72-74). *)
Definition dawg_eq (fuel : nat) (h : heap) (d1 d2 : dawg) : res bool :=
  if negb (N.eqb (d_size d1) (d_size d2)) then Ok false
  else
    do n1 <- read h (d_root d1);
    do n2 <- read h (d_root d2);
    node_eq fuel h n1 n2.

(** std::hash<Dawg> (dawg.cpp:81-91). *)
Definition dawg_hash (fuel : nat) (h : heap) (d : dawg) : res N :=
  let code := murmur_key (d_size d) DEADBEEF in
  do n <- read h (d_root d);
  do k <- node_hash fuel h n;
  Ok (murmur_key k code).

(** ** DawgIterator *)

(** Prefix (prefix.cpp).  Prefixes are never modified after construction and
    live until the iterator is destroyed, so the parent pointer is modelled by
    the parent itself. *)
Inductive prefix :=
| RootPrefix (n : ptr)
| ChildPrefix (n : ptr) (parent : prefix) (label : char).

(** Prefix::node (prefix.cpp:26-28). *)
Definition prefix_node (p : prefix) : ptr :=
  match p with
  | RootPrefix n => n
  | ChildPrefix n _ _ => n
  end.

(** Prefix::str and operator<< (prefix.cpp:34-45). *)
Fixpoint prefix_str (p : prefix) : str :=
  match p with
  | RootPrefix _ => []
  | ChildPrefix _ parent c => prefix_str parent ++ [c]
  end.

(** DawgIterator (dawg_iterator.h): [_pending], [_next_value], [_term_index].
    [_prefixes] only owns the memory of the prefixes and is left out. *)
Record iter := Iter { it_pending : list prefix; it_value : str; it_index : N }.

(** The do-while loop of DawgIterator::advance (dawg_iterator.cpp:43-54): the
    pending queue afterwards, the last prefix popped and its node. *)
Fixpoint advance_loop (fuel : nat) (h : heap) (pending : list prefix)
  : res (list prefix * prefix * node) :=
  match fuel with
  | O => OOF
  | S fuel' =>
      match pending with
      | [] => UB   (* front() of an empty queue; never reached, see advance *)
      | p :: rest =>
          do n <- read h (prefix_node p);
          let rest := rest ++ map (fun e => ChildPrefix (snd e) p (fst e)) (nedges n) in
          match nfin n, rest with
          | false, _ :: _ => advance_loop fuel' h rest
          | _, _ => Ok (rest, p, n)
          end
      end
  end.

(** DawgIterator::advance (dawg_iterator.cpp:37-60). *)
Definition advance (fuel : nat) (h : heap) (it : iter) : res iter :=
  match it_pending it with
  | [] => Ok it
  | _ :: _ =>
      do (rest, p, n) <- advance_loop fuel h (it_pending it);
      Ok (Iter rest (if nfin n then prefix_str p else it_value it) (it_index it))
  end.

(** Dawg::begin and DawgIterator(DawgNode* root) (dawg.cpp:59-61,
    dawg_iterator.cpp:6-11). *)
Definition dawg_begin (fuel : nat) (h : heap) (d : dawg) : res iter :=
  advance fuel h (Iter [RootPrefix (d_root d)] [] 0%N).

(** DawgIterator::operator++ (dawg_iterator.cpp:23-27). *)
Definition iter_next (fuel : nat) (h : heap) (it : iter) : res iter :=
  do it' <- advance fuel h it;
  Ok (Iter (it_pending it') (it_value it') (wadd (it_index it') 1)).

(** [for (auto it = begin(); it != end(); ++it) out.push_back( *it);], i.e. the
    range-for loop over a dictionary.  end() is DawgIterator(_size) and the
    comparison looks at the indices alone (dawg.cpp:63-65,
    dawg_iterator.cpp:13-15, 29-35). *)
Fixpoint iterate_loop (k fuel : nat) (h : heap) (last : N) (it : iter) : res (list str) :=
  match k with
  | O => OOF
  | S k' =>
      if N.eqb (it_index it) last then Ok []
      else
        do it' <- iter_next fuel h it;
        do out <- iterate_loop k' fuel h last it';
        Ok (it_value it :: out)
  end.

Definition iterate (fuel : nat) (h : heap) (d : dawg) : res (list str) :=
  do it <- dawg_begin fuel h d;
  iterate_loop fuel fuel h (d_size d) it.

(** ** SortedDawg *)

(** Transition (transition.cpp): label, source, target. *)
Record trans := Trans { t_label : char; t_source : ptr; t_target : ptr }.

(** An entry of std::unordered_map<DawgNode, DawgNode*>: the hash code computed
    at insertion (libstdc++ caches it because the hash function is not
    noexcept), the key, which is a copy of the node, and the mapped pointer. *)
Record entry := Entry { e_hash : N; e_key : node; e_ptr : ptr }.

(** The three work containers (sorted_dawg.h), the stack's top first.  init()
    allocates and clean_up() deletes them together, so a single [option]
    records whether the three pointers are null. *)
Record work := Work { w_unchecked : list trans; w_minimized : list entry; w_floating : list ptr }.

Record builder := Builder { b_dawg : dawg; b_prev : str; b_work : option work }.

(** unordered_map::find: the entries with the same hash code are compared with
    operator==. *)
Fixpoint map_find (fuel : nat) (h : heap) (code : N) (key : node) (m : list entry)
  : res ptr :=
  match m with
  | [] => Ok null
  | e :: m' =>
      if N.eqb (e_hash e) code then
        do same <- node_eq fuel h key (e_key e);
        if same then Ok (e_ptr e) else map_find fuel h code key m'
      else map_find fuel h code key m'
  end.

(** SortedDawg::minimized_node (sorted_dawg.cpp:61-67). *)
Definition minimized_node (fuel : nat) (h : heap) (m : list entry) (key : ptr) : res ptr :=
  do n <- read h key;
  do code <- node_hash fuel h n;
  map_find fuel h code n m.

(** Assignment of [target] under the key [*target] in minimized_nodes (sorted_dawg.cpp:83): the value of an
    equal key is replaced, otherwise a copy of the node is inserted as key. *)
Fixpoint map_replace (fuel : nat) (h : heap) (code : N) (key : node) (p : ptr) (m : list entry)
  : res (list entry) :=
  match m with
  | [] => Ok [Entry code key p]
  | e :: m' =>
      if N.eqb (e_hash e) code then
        do same <- node_eq fuel h key (e_key e);
        if same then Ok (Entry (e_hash e) (e_key e) p :: m')
        else do r <- map_replace fuel h code key p m'; Ok (e :: r)
      else do r <- map_replace fuel h code key p m'; Ok (e :: r)
  end.

Definition map_assign (fuel : nat) (h : heap) (m : list entry) (target : ptr)
  : res (list entry) :=
  do n <- read h target;
  do code <- node_hash fuel h n;
  map_replace fuel h code n target m.

(** SortedDawg::minimize (sorted_dawg.cpp:69-86).  [k] is the number of
    iterations left, [j - lower_bound]. *)
Fixpoint minimize_loop (k fuel : nat) (h : heap) (w : work) : res (heap * work) :=
  match k with
  | O => Ok (h, w)
  | S k' =>
      match w_unchecked w with
      | [] => UB   (* top() of an empty stack; never reached, see minimize *)
      | Trans label source target :: rest =>
          do existing <- minimized_node fuel h (w_minimized w) target;
          if N.eqb existing null then
            do h1 <- add_edge h source label target;
            do m <- map_assign fuel h1 (w_minimized w) target;
            minimize_loop k' fuel h1 (Work rest m (w_floating w))
          else
            do h1 <- add_edge h source label existing;
            minimize_loop k' fuel h1 (Work rest (w_minimized w) (w_floating w))
      end
  end.

Definition minimize (fuel : nat) (h : heap) (w : work) (lower_bound : nat)
  : res (heap * work) :=
  minimize_loop (length (w_unchecked w) - lower_bound) fuel h w.

(** The loop computing the length of the longest common prefix
    (sorted_dawg.cpp:27-33). *)
Fixpoint common_prefix (term prev : str) : nat :=
  match term, prev with
  | c :: term', d :: prev' => if ceqb c d then S (common_prefix term' prev') else 0
  | _, _ => 0
  end.

(** The loop that appends fresh nodes for the rest of the term
    (sorted_dawg.cpp:44-49); returns the last source. *)
Fixpoint push_suffix (alloc : heap -> ptr) (h : heap) (w : work) (source : ptr) (rest : str)
  : heap * work * ptr :=
  match rest with
  | [] => (h, w, source)
  | c :: rest' =>
      let (target, h1) := new_node alloc h false in
      push_suffix alloc h1
        (Work (Trans c source target :: w_unchecked w) (w_minimized w)
           (set_insert target (w_floating w)))
        target rest'
  end.

(** SortedDawg::add (sorted_dawg.cpp:15-55).  Without a preceding init(), or
    after clean_up(), the containers are null and using them is UB. *)
Definition add (fuel : nat) (alloc : heap -> ptr) (h : heap) (b : builder) (term : str)
  : res (bool * heap * builder) :=
  let d := b_dawg b in
  if str_ltb term (b_prev b) then Ok (false, h, b)
  else
    match term with
    | [] =>
        do h1 <- set_final h (d_root d) true;
        Ok (true, h1, Builder (Dawg (d_root d) (wadd (d_size d) 1)) term (b_work b))
    | _ :: _ =>
        let i := common_prefix term (b_prev b) in
        do w <- deref (b_work b);
        do (h1, w1) <- minimize fuel h w i;
        let source :=
          match w_unchecked w1 with
          | [] => d_root d
          | t :: _ => t_target t
          end in
        let '(h2, w2, last) := push_suffix alloc h1 w1 source (skipn i term) in
        do h3 <- set_final h2 last true;
        Ok (true, h3, Builder (Dawg (d_root d) (wadd (d_size d) 1)) term (Some w2))
    end.

(** SortedDawg::finish (sorted_dawg.cpp:57-59). *)
Definition finish (fuel : nat) (h : heap) (b : builder) : res (heap * builder) :=
  do w <- deref (b_work b);
  do (h1, w1) <- minimize fuel h w 0;
  Ok (h1, Builder (b_dawg b) (b_prev b) (Some w1)).

(** SortedDawg::remove (sorted_dawg.cpp:88-90). *)
Definition remove (h : heap) (b : builder) (term : str) : bool * heap * builder :=
  (false, h, b).

(** SortedDawg::clean_up (sorted_dawg.cpp:98-121). *)
Definition clean_up (fuel : nat) (h : heap) (b : builder) : res (heap * builder) :=
  match b_work b with
  | None => Ok (h, b)
  | Some w =>
      do nodes <- all_nodes fuel h (b_dawg b);
      do h1 <- delete_all h (filter (fun p => negb (set_mem p nodes)) (w_floating w));
      Ok (h1, Builder (b_dawg b) (b_prev b) None)
  end.

(** [new SortedDawg()] (dawg.cpp:17-20), then init() (sorted_dawg.cpp:92-96). *)
Definition new_sorted_dawg (alloc : heap -> ptr) (h : heap) : heap * builder :=
  let (root, h1) := new_node alloc h false in
  (h1, Builder (Dawg root 0%N) [] None).

Definition init (b : builder) : builder :=
  Builder (b_dawg b) (b_prev b) (Some (Work [] [] [])).

(** [delete dawg]: SortedDawg::~SortedDawg, then Dawg::~Dawg
    (sorted_dawg.cpp:11-13, dawg.cpp:22-26). *)
Definition destroy (fuel : nat) (h : heap) (b : builder) : res heap :=
  do (h1, b1) <- clean_up fuel h b;
  destroy_dawg fuel h1 (b_dawg b1).

(** The loop of sorted_dawg(iter, end) (sorted_dawg.cpp:128-135): the builder
    after all terms, or [None] after the dictionary was deleted because a term
    was rejected. *)
Fixpoint add_all (fuel : nat) (alloc : heap -> ptr) (h : heap) (b : builder) (terms : list str)
  : res (heap * option builder) :=
  match terms with
  | [] => Ok (h, Some b)
  | term :: terms' =>
      do (accepted, h1, b1) <- add fuel alloc h b term;
      if accepted then add_all fuel alloc h1 b1 terms'
      else do h2 <- destroy fuel h1 b1; Ok (h2, None)
  end.

(** sorted_dawg(iter, end) (sorted_dawg.cpp:123-140); [None] is nullptr. *)
Definition sorted_dawg (fuel : nat) (alloc : heap -> ptr) (h : heap) (terms : list str)
  : res (heap * option builder) :=
  let (h0, b0) := new_sorted_dawg alloc h in
  do (h1, r) <- add_all fuel alloc h0 (init b0) terms;
  match r with
  | None => Ok (h1, None)
  | Some b1 =>
      do (h2, b2) <- finish fuel h1 b1;
      do (h3, b3) <- clean_up fuel h2 b2;
      Ok (h3, Some b3)
  end.

(** * ModelSteps: dictionaries as programs of single memory accesses.

    The functions of ModelDawg take a memory of nodes and return one, so they
    describe a program that has the memory to itself.  Here the same functions
    are programs: trees whose nodes are the accesses to DawgNode objects, one at
    a time.  Threads that run such programs take turns after every access.
    StepsAlone shows that a program that runs alone does what the function of
    ModelDawg does.

    The members of a Dawg or SortedDawg object (root, size, last term, work
    containers), those of an iterator and local variables are not reached by
    other threads as long as only one of them modifies them, and are part of the
    program.

    The command [Copy] passes the message on without the bytes: that these say the
    same is C54. *)
From Verif Require Import Base Spec ModelHash ModelTransducer ModelDawg ModelQuery ModelSerial.

(** ** The accesses *)

(** Programs with a result.  [Wrong] is undefined behaviour, [Spent] a loop that
    has been cut off (see OOF).  [Look] reads the node at an address, [Store]
    overwrites it, [Make] is [new DawgNode], [Drop] is [delete]. *)
Inductive action (A : Type) : Type :=
| Done (x : A)
| Wrong
| Spent
| Look (p : ptr) (k : node -> action A)
| Store (p : ptr) (n : node) (k : action A)
| Make (n : node) (k : ptr -> action A)
| Drop (p : ptr) (k : action A).
Arguments Done {A}. Arguments Wrong {A}. Arguments Spent {A}. Arguments Look {A}. Arguments Store {A}.
Arguments Make {A}. Arguments Drop {A}.

Fixpoint andthen {A B : Type} (p : action A) (f : A -> action B) : action B :=
  match p with
  | Done x => f x
  | Wrong => Wrong
  | Spent => Spent
  | Look a k => Look a (fun n => andthen (k n) f)
  | Store a n k => Store a n (andthen k f)
  | Make n k => Make n (fun a => andthen (k a) f)
  | Drop a k => Drop a (andthen k f)
  end.

Notation "'let*' x := p 'in' f" := (andthen p (fun x => f))
  (at level 60, x pattern, p at level 200, f at level 200, right associativity).

(** ** Programs that share memory

    What the next access of a program does to the memory: [new] returns any
    non-null address that is free at the moment.  Accesses to null and to
    addresses that are not allocated are undefined. *)
Definition there (h : heap) (p : ptr) : option node := if N.eqb p null then None else hget h p.

Inductive access {A : Type} : action A -> heap -> action A * heap -> Prop :=
| access_look : forall a k h n, there h a = Some n -> access (Look a k) h (k n, h)
| access_store : forall a n k h n0, there h a = Some n0 -> access (Store a n k) h (k, hset h a n)
| access_make : forall n k h a, a <> null -> hget h a = None -> access (Make n k) h (k a, hset h a n)
| access_drop : forall a k h n0, there h a = Some n0 -> access (Drop a k) h (k, hdel h a)
| access_bad_look : forall a k h, there h a = None -> access (Look a k) h (Wrong, h)
| access_bad_store : forall a n k h, there h a = None -> access (Store a n k) h (Wrong, h)
| access_bad_drop : forall a k h, there h a = None -> access (Drop a k) h (Wrong, h).

(** One access of one of the programs; any number of them. *)
Inductive turn {A : Type} : heap * list (action A) -> heap * list (action A) -> Prop :=
| one_turn : forall h before p after p' h', access p h (p', h') ->
    turn (h, before ++ p :: after) (h', before ++ p' :: after).

Inductive turns {A : Type} : heap * list (action A) -> heap * list (action A) -> Prop :=
| no_turn : forall s, turns s s
| more_turns : forall s s' s'', turns s s' -> turn s' s'' -> turns s s''.

(** ** A program that runs alone

    [alloc] decides which addresses [new] returns. *)
Definition done_or {A B : Type} (o : option A) (f : A -> res B) : res B :=
  match o with Some x => f x | None => UB end.
Fixpoint alone {A : Type} (alloc : heap -> ptr) (p : action A) (h : heap) : res (heap * A) :=
  match p with
  | Done x => Ok (h, x)
  | Wrong => UB
  | Spent => OOF
  | Look a k => done_or (there h a) (fun n => alone alloc (k n) h)
  | Store a n k => done_or (there h a) (fun _ => alone alloc k (hset h a n))
  | Make n k => alone alloc (k (alloc h)) (hset h (alloc h) n)
  | Drop a k => done_or (there h a) (fun _ => alone alloc k (hdel h a))
  end.

(** ** DawgNode *)

(** [new DawgNode(is_final)] (dawg_node.cpp:15-17); [delete p], which does
    nothing for nullptr. *)
Definition s_new_node (fin : bool) : action ptr := Make (Node fin []) Done.
Definition s_delete (p : ptr) : action unit := if N.eqb p null then Done tt else Drop p (Done tt).

(** DawgNode::is_final(bool) (dawg_node.cpp:19-21). *)
Definition s_set_final (p : ptr) (b : bool) : action unit :=
  Look p (fun n => Store p (Node b (nedges n)) (Done tt)).

(** DawgNode::add_edge (dawg_node.cpp:41-46). *)
Definition s_add_edge (p : ptr) (c : char) (target : ptr) : action unit :=
  Look p (fun n =>
    let* _ := s_delete (transition n c) in
    Look p (fun n1 => Store p (Node (nfin n1) (edge_set (nedges n1) c target)) (Done tt))).

(** DawgNode::operator== (dawg_node.cpp:53-71). *)
Fixpoint s_node_eq (fuel : nat) (a b : node) : action bool :=
  match fuel with
  | O => Spent
  | S fuel' =>
      if negb (Bool.eqb (nfin a) (nfin b)) then Done false
      else if negb (Nat.eqb (length (nedges a)) (length (nedges b))) then Done false
      else
        (fix each (es : list (char * ptr)) : action bool :=
           match es with
           | [] => Done true
           | (c, expected) :: es' =>
               let actual := transition b c in
               if N.eqb actual null then Done false
               else
                 Look expected (fun x =>
                 Look actual (fun y =>
                 let* e := s_node_eq fuel' x y in
                 if (e : bool) then each es' else Done false))
           end) (nedges a)
  end.

(** std::hash<DawgNode> (dawg_node.cpp:93-109). *)
Fixpoint s_node_hash (fuel : nat) (n : node) : action N :=
  match fuel with
  | O => Spent
  | S fuel' =>
      let* code :=
        (fix each (es : list (char * ptr)) (code : N) : action N :=
           match es with
           | [] => Done code
           | (c, target) :: es' =>
               let code := murmur_key (uchar c) code in
               Look target (fun t =>
               let* k := s_node_hash fuel' t in
               each es' (murmur_key k code))
           end) (nedges n) DEADBEEF in
      Done (murmur_key (if nfin n then 1%N else 0%N) code)
  end.

(** ** Dawg *)

(** Dawg::all_nodes (dawg.cpp:28-41), the deletions and Dawg::~Dawg
    (dawg.cpp:22-26). *)
Fixpoint s_all_nodes_loop (fuel : nat) (pending nodes : list ptr) : action (list ptr) :=
  match fuel with
  | O => Spent
  | S fuel' =>
      match pending with
      | [] => Done nodes
      | p :: pending' =>
          Look p (fun n => s_all_nodes_loop fuel' (pending' ++ map snd (nedges n)) (set_insert p nodes))
      end
  end.
Definition s_all_nodes (fuel : nat) (d : dawg) : action (list ptr) := s_all_nodes_loop fuel [d_root d] [].
Fixpoint s_delete_all (nodes : list ptr) : action unit :=
  match nodes with
  | [] => Done tt
  | p :: nodes' => let* _ := s_delete p in s_delete_all nodes'
  end.
Definition s_destroy_dawg (fuel : nat) (d : dawg) : action unit :=
  let* nodes := s_all_nodes fuel d in s_delete_all nodes.

(** Dawg::contains (dawg.cpp:43-49). *)
Fixpoint s_contains_loop (p : ptr) (i : N) (term : str) : action ptr :=
  match term with
  | [] => Done p
  | c :: term' =>
      if N.eqb p null then Done p
      else Look p (fun n => if (i =? 2147483647)%N then Wrong else s_contains_loop (transition n c) (i + 1)%N term')
  end.
Definition s_contains (d : dawg) (term : str) : action bool :=
  let* p := s_contains_loop (d_root d) 0%N term in
  if N.eqb p null then Done false else Look p (fun n => Done (nfin n)).

(** Dawg::operator== (dawg.cpp:72-74). *)
Definition s_dawg_eq (fuel : nat) (d1 d2 : dawg) : action bool :=
  if negb (N.eqb (d_size d1) (d_size d2)) then Done false
  else Look (d_root d1) (fun n1 => Look (d_root d2) (fun n2 => s_node_eq fuel n1 n2)).

(** std::hash<Dawg> (dawg.cpp:81-91). *)
Definition s_dawg_hash (fuel : nat) (d : dawg) : action N :=
  let code := murmur_key (d_size d) DEADBEEF in
  Look (d_root d) (fun n => let* k := s_node_hash fuel n in Done (murmur_key k code)).

(** ** DawgIterator *)

(** DawgIterator::advance (dawg_iterator.cpp:37-60). *)
Fixpoint s_advance_loop (fuel : nat) (pending : list prefix) : action (list prefix * prefix * node) :=
  match fuel with
  | O => Spent
  | S fuel' =>
      match pending with
      | [] => Wrong
      | p :: rest =>
          Look (prefix_node p) (fun n =>
          let rest := rest ++ map (fun e => ChildPrefix (snd e) p (fst e)) (nedges n) in
          match nfin n, rest with
          | false, _ :: _ => s_advance_loop fuel' rest
          | _, _ => Done (rest, p, n)
          end)
      end
  end.
Definition s_advance (fuel : nat) (it : iter) : action iter :=
  match it_pending it with
  | [] => Done it
  | _ :: _ =>
      let* (rest, p, n) := s_advance_loop fuel (it_pending it) in
      Done (Iter rest (if nfin n then prefix_str p else it_value it) (it_index it))
  end.

(** Dawg::begin (dawg.cpp:59-61, dawg_iterator.cpp:6-11), operator++
    (dawg_iterator.cpp:23-27) and the range-for loop (dawg.cpp:63-65,
    dawg_iterator.cpp:13-15, 29-35). *)
Definition s_dawg_begin (fuel : nat) (d : dawg) : action iter :=
  s_advance fuel (Iter [RootPrefix (d_root d)] [] 0%N).
Definition s_iter_next (fuel : nat) (it : iter) : action iter :=
  let* it' := s_advance fuel it in Done (Iter (it_pending it') (it_value it') (wadd (it_index it') 1)).
Fixpoint s_iterate_loop (k fuel : nat) (last : N) (it : iter) : action (list str) :=
  match k with
  | O => Spent
  | S k' =>
      if N.eqb (it_index it) last then Done []
      else
        let* it' := s_iter_next fuel it in
        let* out := s_iterate_loop k' fuel last it' in
        Done (it_value it :: out)
  end.
Definition s_iterate (fuel : nat) (d : dawg) : action (list str) :=
  let* it := s_dawg_begin fuel d in s_iterate_loop fuel fuel (d_size d) it.

(** ** SortedDawg *)

(** unordered_map::find and SortedDawg::minimized_node (sorted_dawg.cpp:61-67). *)
Fixpoint s_map_find (fuel : nat) (code : N) (key : node) (m : list entry) : action ptr :=
  match m with
  | [] => Done null
  | e :: m' =>
      if N.eqb (e_hash e) code then
        let* same := s_node_eq fuel key (e_key e) in
        if (same : bool) then Done (e_ptr e) else s_map_find fuel code key m'
      else s_map_find fuel code key m'
  end.
Definition s_minimized_node (fuel : nat) (m : list entry) (key : ptr) : action ptr :=
  Look key (fun n => let* code := s_node_hash fuel n in s_map_find fuel code n m).

(** The assignment to minimized_nodes (sorted_dawg.cpp:83). *)
Fixpoint s_map_replace (fuel : nat) (code : N) (key : node) (p : ptr) (m : list entry) : action (list entry) :=
  match m with
  | [] => Done [Entry code key p]
  | e :: m' =>
      if N.eqb (e_hash e) code then
        let* same := s_node_eq fuel key (e_key e) in
        if (same : bool) then Done (Entry (e_hash e) (e_key e) p :: m')
        else let* r := s_map_replace fuel code key p m' in Done (e :: r)
      else let* r := s_map_replace fuel code key p m' in Done (e :: r)
  end.
Definition s_map_assign (fuel : nat) (m : list entry) (target : ptr) : action (list entry) :=
  Look target (fun n => let* code := s_node_hash fuel n in s_map_replace fuel code n target m).

(** SortedDawg::minimize (sorted_dawg.cpp:69-86). *)
Fixpoint s_minimize_loop (k fuel : nat) (w : work) : action work :=
  match k with
  | O => Done w
  | S k' =>
      match w_unchecked w with
      | [] => Wrong
      | Trans label source target :: rest =>
          let* existing := s_minimized_node fuel (w_minimized w) target in
          if N.eqb existing null then
            let* _ := s_add_edge source label target in
            let* m := s_map_assign fuel (w_minimized w) target in
            s_minimize_loop k' fuel (Work rest m (w_floating w))
          else
            let* _ := s_add_edge source label existing in
            s_minimize_loop k' fuel (Work rest (w_minimized w) (w_floating w))
      end
  end.
Definition s_minimize (fuel : nat) (w : work) (lower_bound : nat) : action work :=
  s_minimize_loop (length (w_unchecked w) - lower_bound) fuel w.

(** SortedDawg::add (sorted_dawg.cpp:15-55). *)
Fixpoint s_push_suffix (w : work) (source : ptr) (rest : str) : action (work * ptr) :=
  match rest with
  | [] => Done (w, source)
  | c :: rest' =>
      let* target := s_new_node false in
      s_push_suffix
        (Work (Trans c source target :: w_unchecked w) (w_minimized w) (set_insert target (w_floating w)))
        target rest'
  end.
Definition s_add (fuel : nat) (b : builder) (term : str) : action (bool * builder) :=
  let d := b_dawg b in
  if str_ltb term (b_prev b) then Done (false, b)
  else
    match term with
    | [] =>
        let* _ := s_set_final (d_root d) true in
        Done (true, Builder (Dawg (d_root d) (wadd (d_size d) 1)) term (b_work b))
    | _ :: _ =>
        let i := common_prefix term (b_prev b) in
        match b_work b with
        | None => Wrong
        | Some w =>
            let* w1 := s_minimize fuel w i in
            let source := match w_unchecked w1 with [] => d_root d | t :: _ => t_target t end in
            let* (w2, last) := s_push_suffix w1 source (skipn i term) in
            let* _ := s_set_final last true in
            Done (true, Builder (Dawg (d_root d) (wadd (d_size d) 1)) term (Some w2))
        end
    end.

(** SortedDawg::finish (sorted_dawg.cpp:57-59). *)
Definition s_finish (fuel : nat) (b : builder) : action builder :=
  match b_work b with
  | None => Wrong
  | Some w =>
      let* w1 := s_minimize fuel w 0 in
      Done (Builder (b_dawg b) (b_prev b) (Some w1))
  end.

(** SortedDawg::clean_up (sorted_dawg.cpp:98-121). *)
Definition s_clean_up (fuel : nat) (b : builder) : action builder :=
  match b_work b with
  | None => Done b
  | Some w =>
      let* nodes := s_all_nodes fuel (b_dawg b) in
      let* _ := s_delete_all (filter (fun p => negb (set_mem p nodes)) (w_floating w)) in
      Done (Builder (b_dawg b) (b_prev b) None)
  end.

(** [new SortedDawg()] (dawg.cpp:17-20); [delete dawg] (sorted_dawg.cpp:11-13,
    dawg.cpp:22-26). *)
Definition s_new_sorted_dawg : action builder :=
  let* root := s_new_node false in Done (Builder (Dawg root 0%N) [] None).
Definition s_destroy (fuel : nat) (b : builder) : action unit :=
  let* b1 := s_clean_up fuel b in s_destroy_dawg fuel (b_dawg b1).

(** sorted_dawg(iter, end) (sorted_dawg.cpp:123-140). *)
Fixpoint s_add_all (fuel : nat) (b : builder) (terms : list str) : action (option builder) :=
  match terms with
  | [] => Done (Some b)
  | term :: terms' =>
      let* (accepted, b1) := s_add fuel b term in
      if (accepted : bool) then s_add_all fuel b1 terms'
      else let* _ := s_destroy fuel b1 in Done None
  end.
Definition s_sorted_dawg (fuel : nat) (terms : list str) : action (option builder) :=
  let* b0 := s_new_sorted_dawg in
  let* r := s_add_all fuel (init b0) terms in
  match r with
  | None => Done None
  | Some b1 =>
      let* b2 := s_finish fuel b1 in
      let* b3 := s_clean_up fuel b2 in
      Done (Some b3)
  end.

(** ** Queries

    The states, intersections and queues of a query belong to the thread that has
    made it (see C68 for transducers that threads share). *)
Definition pure {A : Type} (r : res A) : action A :=
  match r with Ok x => Done x | UB => Wrong | OOF => Spent end.

Section Query.
  Context {R : Type} (rt : result_type R).
  Variables (alg : algorithm) (term : str) (max_distance : N).
  Let len := N.of_nat (length term).

  (** LazyQuery::advance (lazy_query.cpp:33-76). *)
  Definition s_advance_step (q : query R) : action (bool * query R) :=
    match q_edges q with
    | [] =>
        match q_pending q with
        | [] => Wrong
        | x :: rest =>
            match i_state x with
            | [] => Wrong
            | head :: _ =>
                Look (i_node x) (fun n =>
                Done (false, Query rest (nedges n) (q_complete q) (Some x) (q_candidate q)
                               (query_k (query_a max_distance) len (ti head)) (ti head)))
            end
        end
    | (label, next) :: edges =>
        let* x := pure (deref (q_current q)) in
        let* cv := pure (characteristic_vector label term (q_k q) (q_i q)) in
        let* o := pure (state_transition alg max_distance len (i_state x) cv) in
        match o with
        | None => Done (false, Query (q_pending q) edges (q_complete q) (q_current q) (q_candidate q) (q_k q) (q_i q))
        | Some st =>
            let y := ChildI label next st x in
            let pending := q_pending q ++ [y] in
            let go_on := Done (false, Query pending edges (q_complete q) (q_current q) (q_candidate q) (q_k q) (q_i q)) in
            Look next (fun n =>
            if nfin n then
              let d := distance alg st len in
              if (d <=? max_distance)%N then
                Done (true, Query pending edges false (q_current q) (r_update rt (i_str y) d) (q_k q) (q_i q))
              else go_on
            else go_on)
        end
    end.
  Fixpoint s_advance_query_loop (fuel : nat) (q : query R) : action (query R) :=
    match fuel with
    | O => Spent
    | S fuel' =>
        let* (broke, q') := s_advance_step q in
        if (broke : bool) then Done q'
        else if has_work q' then s_advance_query_loop fuel' q' else Done q'
    end.
  Definition s_advance_query (fuel : nat) (q : query R) : action (query R) :=
    if has_work q then s_advance_query_loop fuel (set_complete q) else Done (set_complete q).

  (** LazyQuery::LazyQuery (lazy_query.cpp:8-25) and the range-for loop
      (lazy_query.cpp:86-90, 111-115, 145-154). *)
  Definition s_new_query (fuel : nat) (root : intersection) : action (query R) :=
    let q := Query [root] [] false None (r_default rt) 0%N 0%N in
    Look (i_node root) (fun n =>
    if nfin n && (len <=? max_distance)%N then
      Done (Query [root] [] false None (r_update rt [] len) 0%N 0%N)
    else s_advance_query fuel q).
  Fixpoint s_collect (rounds fuel : nat) (q : query R) : action (list R) :=
    match rounds with
    | O => Spent
    | S rounds' =>
        if query_eq q (end_query rt) then Done []
        else
          let* q' := s_advance_query fuel q in
          let* out := s_collect rounds' fuel q' in
          Done (q_candidate q :: out)
    end.
End Query.

(** Transducer::operator() (transducer.cpp:25-36) and the range-for loop. *)
Definition s_query_all {R : Type} (rt : result_type R) (fuel : nat) (t : transducer) (term : str) (max_distance : N)
  : action (list R) :=
  let* q := s_new_query rt (tr_alg t) term max_distance fuel (tr_root t) in
  s_collect rt (tr_alg t) term max_distance fuel fuel q.

(** ** The serializer *)

(** collect_nodes (serializer.cpp:68-80). *)
Fixpoint s_collect_nodes (fuel : nat) (source : ptr) (ids finals : list N) : action (list N * list N) :=
  match fuel with
  | O => Spent
  | S fuel' =>
      if set_mem source ids then Done (ids, finals)
      else
        Look source (fun n =>
        (fix each (es : list (char * ptr)) (ids finals : list N) : action (list N * list N) :=
           match es with
           | [] => Done (ids, finals)
           | (_, target) :: es' =>
               let* (ids1, finals1) := s_collect_nodes fuel' target ids finals in
               each es' ids1 finals1
           end) (nedges n) (id_insert source ids) (if nfin n then id_insert source finals else finals))
  end.

(** collect_edges (serializer.cpp:82-93). *)
Fixpoint s_collect_edges (fuel : nat) (source : ptr) (edges : edge_map) : action edge_map :=
  match fuel with
  | O => Spent
  | S fuel' =>
      Look source (fun n =>
      (fix each (es : list (char * ptr)) (edges : edge_map) : action edge_map :=
         match es with
         | [] => Done edges
         | (label, target) :: es' =>
             if edges_contains edges (source, label) then each es' edges
             else
               let* edges1 := s_collect_edges fuel' target (edges_insert edges (source, label) target) in
               each es' edges1
         end) (nedges n) edges)
  end.

(** to_protobuf (serializer.cpp:95-126). *)
Definition s_to_protobuf (fuel : nat) (d : dawg) : action message :=
  let* (ids, finals) := s_collect_nodes fuel (d_root d) [] [] in
  let* edges := s_collect_edges fuel (d_root d) [] in
  Done (Message ids finals
          (map (fun e => EdgeMsg (fst (fst e)) (label_to_msg (snd (fst e))) (snd e)) edges)
          (d_root d) (d_size d)).

(** from_protobuf (serializer.cpp:128-158). *)
Fixpoint s_make_nodes (finals ids : list N) (nodes : node_map) : action node_map :=
  match ids with
  | [] => Done nodes
  | id :: ids' =>
      match find_node nodes id with
      | Some _ => s_make_nodes finals ids' nodes
      | None =>
          let* p := s_new_node (set_mem id finals) in
          s_make_nodes finals ids' ((id, p) :: nodes)
      end
  end.
Fixpoint s_link_edges (nodes : node_map) (edges : list edge_msg) : action unit :=
  match edges with
  | [] => Done tt
  | e :: edges' =>
      let* _ := s_add_edge (node_at nodes (em_source e)) (label_of_msg (em_label e)) (node_at nodes (em_target e)) in
      s_link_edges nodes edges'
  end.
Definition s_from_protobuf (m : message) : action builder :=
  let* nodes := s_make_nodes (m_finals m) (m_nodes m) [] in
  let* _ := s_link_edges nodes (m_edges m) in
  Done (Builder (Dawg (node_at nodes (m_root m)) (m_size m)) [] None).

(** ** Threads

    What a thread does with dictionaries: it has some of its own, numbered in
    the order in which it created them, and there are others that all threads
    may read. *)
Inductive which := Own (i : nat) | Shared (j : nat).
Inductive command :=
| Build (terms : list str)               (* sorted_dawg(terms.begin(), terms.end()) *)
| Begin                                  (* new SortedDawg(); init() *)
| Add (i : nat) (term : str)             (* add(term) *)
| Finish (i : nat)                       (* finish() *)
| Delete (i : nat)                       (* delete dawg *)
| Contains (d : which) (term : str)      (* contains(term) *)
| List (d : which)                       (* for (std::string term : *dawg) *)
| Equal (d e : which)                    (* *d == *e *)
| Hash (d : which)                       (* std::hash<Dawg>()( *d) *)
| Search (alg : algorithm) (d : which) (query : str) (max_distance : N)
                                         (* Transducer<alg, Candidate>(d->root())(query, max_distance) and the loop *)
| Copy (d : which).                      (* serialize_protobuf(d, stream); deserialize_protobuf(stream) *)

(** What a command returns. *)
Inductive answer := Nothing | Answered (b : bool) | Listed (terms : list str) | Hashed (code : N)
| Found (candidates : list (str * N)).

(** A thread's dictionaries: [None] when deleted, or when sorted_dawg has
    returned nullptr. *)
Definition slots := list (option builder).
Definition slot_put (i : nat) (b : option builder) (ss : slots) : slots :=
  firstn i ss ++ b :: skipn (S i) ss.
Definition slot_get (i : nat) (ss : slots) : option builder :=
  match nth_error ss i with Some s => s | None => None end.
Definition dawg_of (shared : list dawg) (ss : slots) (d : which) : option dawg :=
  match d with
  | Own i => match slot_get i ss with Some b => Some (b_dawg b) | None => None end
  | Shared j => nth_error shared j
  end.

(** Using a null pointer is undefined; deleting it does nothing. *)
Definition with_builder (ss : slots) (i : nat) (f : builder -> action (slots * answer)) : action (slots * answer) :=
  match slot_get i ss with Some b => f b | None => Wrong end.
Definition with_dawg (shared : list dawg) (ss : slots) (d : which) (f : dawg -> action (slots * answer))
  : action (slots * answer) :=
  match dawg_of shared ss d with Some x => f x | None => Wrong end.

Definition s_command (fuel : nat) (shared : list dawg) (c : command) (ss : slots) : action (slots * answer) :=
  match c with
  | Build terms =>
      let* r := s_sorted_dawg fuel terms in
      Done (ss ++ [r], Answered (match r with Some _ => true | None => false end))
  | Begin => let* b := s_new_sorted_dawg in Done (ss ++ [Some (init b)], Nothing)
  | Add i term =>
      with_builder ss i (fun b => let* (r, b1) := s_add fuel b term in Done (slot_put i (Some b1) ss, Answered r))
  | Finish i =>
      with_builder ss i (fun b => let* b1 := s_finish fuel b in Done (slot_put i (Some b1) ss, Nothing))
  | Delete i =>
      match slot_get i ss with
      | Some b => let* _ := s_destroy fuel b in Done (slot_put i None ss, Nothing)
      | None => Done (ss, Nothing)
      end
  | Contains d term => with_dawg shared ss d (fun x => let* r := s_contains x term in Done (ss, Answered r))
  | List d => with_dawg shared ss d (fun x => let* out := s_iterate fuel x in Done (ss, Listed out))
  | Equal d e =>
      with_dawg shared ss d (fun x => with_dawg shared ss e (fun y =>
        let* r := s_dawg_eq fuel x y in Done (ss, Answered r)))
  | Hash d => with_dawg shared ss d (fun x => let* k := s_dawg_hash fuel x in Done (ss, Hashed k))
  | Search alg d query n =>
      with_dawg shared ss d (fun x =>
        let* out := s_query_all as_candidate fuel (new_transducer alg (d_root x)) query n in Done (ss, Found out))
  | Copy d =>
      with_dawg shared ss d (fun x =>
        let* m := s_to_protobuf fuel x in
        let* b := s_from_protobuf m in
        Done (ss ++ [Some b], Nothing))
  end.

Fixpoint s_run (fuel : nat) (shared : list dawg) (cs : list command) (ss : slots)
  : action (slots * list answer) :=
  match cs with
  | [] => Done (ss, [])
  | c :: cs' =>
      let* (ss1, a) := s_command fuel shared c ss in
      let* (ss2, out) := s_run fuel shared cs' ss1 in
      Done (ss2, a :: out)
  end.

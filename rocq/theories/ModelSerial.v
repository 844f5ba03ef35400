(** * ModelSerial: the serializer (serialization/serializer.cpp).

    The message class is generated by protobuf; it is modelled as a record of
    its fields.  Encoding messages as bytes and files is protobuf's and iostream's
    and is in ModelWire.v: [Some m] below is a stream that parses as [m].
    Numbers of repeated elements are ints in protobuf; messages are assumed to
    have fewer than 2^31 elements per field. *)
From Verif Require Import Base ModelDawg.

(** An edge of the message: source_id, label (uint32), target_id
    (proto/liblevenshtein.proto:9-13). *)
Record edge_msg := EdgeMsg { em_source : N; em_label : N; em_target : N }.

(** Dictionary (proto/liblevenshtein.proto:8-19). *)
Record message := Message {
  m_nodes : list N; m_finals : list N; m_edges : list edge_msg; m_root : N; m_size : N
}.

(** [set_label(label)]: the char is converted to uint32, i.e. sign-extended
    (serializer.cpp:117). *)
Definition label_to_msg (c : char) : N := Z.to_N (schar c mod 4294967296).

(** [(char)edge_proto.label()]: the low byte (serializer.cpp:148). *)
Definition label_of_msg (l : N) : char := ascii_of_N (l mod 256).

(** Insertion into a std::set<uint64_t>, listed in ascending order. *)
Fixpoint id_insert (x : N) (s : list N) : list N :=
  match s with
  | [] => [x]
  | y :: s' => if (x <? y)%N then x :: s else if (x =? y)%N then s else y :: id_insert x s'
  end.

(** collect_nodes (serializer.cpp:68-80).  A node's id is its address. *)
Fixpoint collect_nodes (fuel : nat) (h : heap) (source : ptr) (ids finals : list N)
  : res (list N * list N) :=
  match fuel with
  | O => OOF
  | S fuel' =>
      if set_mem source ids then Ok (ids, finals)
      else
        do n <- read h source;
        (fix each (es : list (char * ptr)) (ids finals : list N) : res (list N * list N) :=
           match es with
           | [] => Ok (ids, finals)
           | (_, target) :: es' =>
               do (ids1, finals1) <- collect_nodes fuel' h target ids finals;
               each es' ids1 finals1
           end) (nedges n) (id_insert source ids) (if nfin n then id_insert source finals else finals)
  end.

(** std::map<std::pair<uint64_t, char>, uint64_t>, listed in ascending order of
    the keys: by id, then by (signed) label. *)
Definition edge_map := list (N * char * N).

Definition key_eqb (k1 k2 : N * char) : bool :=
  (fst k1 =? fst k2)%N && ceqb (snd k1) (snd k2).
Definition key_ltb (k1 k2 : N * char) : bool :=
  (fst k1 <? fst k2)%N || ((fst k1 =? fst k2)%N && (schar (snd k1) <? schar (snd k2))%Z).

Fixpoint edges_contains (m : edge_map) (k : N * char) : bool :=
  match m with
  | [] => false
  | (k', _) :: m' => key_eqb k k' || edges_contains m' k
  end.

(** [edges[key] = value] for a key that is not in the map. *)
Fixpoint edges_insert (m : edge_map) (k : N * char) (v : N) : edge_map :=
  match m with
  | [] => [(k, v)]
  | (k', v') :: m' => if key_ltb k k' then (k, v) :: m else (k', v') :: edges_insert m' k v
  end.

(** collect_edges (serializer.cpp:82-93). *)
Fixpoint collect_edges (fuel : nat) (h : heap) (source : ptr) (edges : edge_map) : res edge_map :=
  match fuel with
  | O => OOF
  | S fuel' =>
      do n <- read h source;
      (fix each (es : list (char * ptr)) (edges : edge_map) : res edge_map :=
         match es with
         | [] => Ok edges
         | (label, target) :: es' =>
             if edges_contains edges (source, label) then each es' edges
             else
               do edges1 <- collect_edges fuel' h target (edges_insert edges (source, label) target);
               each es' edges1
         end) (nedges n) edges
  end.

(** to_protobuf (serializer.cpp:95-126). *)
Definition to_protobuf (fuel : nat) (h : heap) (d : dawg) : res message :=
  do (ids, finals) <- collect_nodes fuel h (d_root d) [] [];
  do edges <- collect_edges fuel h (d_root d) [];
  Ok (Message ids finals
        (map (fun e => EdgeMsg (fst (fst e)) (label_to_msg (snd (fst e))) (snd e)) edges)
        (d_root d) (d_size d)).

(** std::map<uint64_t, DawgNode*> as an association list; only look-ups
    depend on it.  operator[] of an absent key gives nullptr. *)
Definition node_map := list (N * ptr).

Fixpoint find_node (nodes : node_map) (id : N) : option ptr :=
  match nodes with
  | [] => None
  | (i, p) :: nodes' => if (id =? i)%N then Some p else find_node nodes' id
  end.

Definition node_at (nodes : node_map) (id : N) : ptr :=
  match find_node nodes id with Some p => p | None => null end.

(** The loop creating the nodes (serializer.cpp:135-143). *)
Fixpoint make_nodes (alloc : heap -> ptr) (h : heap) (finals ids : list N) (nodes : node_map)
  : heap * node_map :=
  match ids with
  | [] => (h, nodes)
  | id :: ids' =>
      match find_node nodes id with
      | Some _ => make_nodes alloc h finals ids' nodes
      | None =>
          let (p, h1) := new_node alloc h (set_mem id finals) in
          make_nodes alloc h1 finals ids' ((id, p) :: nodes)
      end
  end.

(** The loop adding the edges (serializer.cpp:145-153). *)
Fixpoint link_edges (h : heap) (nodes : node_map) (edges : list edge_msg) : res heap :=
  match edges with
  | [] => Ok h
  | e :: edges' =>
      do h1 <- add_edge h (node_at nodes (em_source e)) (label_of_msg (em_label e))
                 (node_at nodes (em_target e));
      link_edges h1 nodes edges'
  end.

(** from_protobuf (serializer.cpp:128-158).  The result is a
    SortedDawg(root, size): no work containers, empty previous term. *)
Definition from_protobuf (alloc : heap -> ptr) (h : heap) (m : message) : res (heap * builder) :=
  let (h1, nodes) := make_nodes alloc h (m_finals m) (m_nodes m) [] in
  do h2 <- link_edges h1 nodes (m_edges m);
  Ok (h2, Builder (Dawg (node_at nodes (m_root m)) (m_size m)) [] None).

(** deserialize_protobuf(std::istream&) (serializer.cpp:59-66); [None] is a
    stream that does not parse, resp. the result nullptr. *)
Definition deserialize (alloc : heap -> ptr) (h : heap) (parsed : option message)
  : res (heap * option builder) :=
  match parsed with
  | None => Ok (h, None)
  | Some m => do (h1, b) <- from_protobuf alloc h m; Ok (h1, Some b)
  end.

(** * ModelSerialThrow: saving and loading dictionaries when memory runs out.

    The functions of ModelSerial and ModelWire with a budget of allocations as in
    ModelThrow.  Every [new] expression, every insertion into a container, every
    element added to a message and every call that wraps a lambda in a
    std::function counts as one allocation, even where the library would not need
    one.  Simplification: what protobuf and the streams allocate to encode and
    decode messages is not counted. *)
From Verif Require Import Base ModelDawg ModelSerial ModelWire ModelThrow ModelBuildThrow.

(** collect_nodes (serializer.cpp:68-80); no result if an exception was thrown. *)
Fixpoint try_collect_nodes (fuel : nat) (b : budget) (h : heap) (source : ptr) (ids finals : list N)
  : res (budget * option (list N * list N)) :=
  match fuel with
  | O => OOF
  | S fuel' =>
      if set_mem source ids then Ok (b, Some (ids, finals))
      else
        match spend b with
        | None => Ok (b, None)    (* node_ids.insert *)
        | Some b1 =>
            do n <- read h source;
            match (if nfin n then spend b1 else Some b1) with
            | None => Ok (b1, None)    (* final_node_ids.insert *)
            | Some b2 =>
                match spend b2 with
                | None => Ok (b2, None)    (* std::function *)
                | Some b3 =>
                    (fix each (es : list (char * ptr)) (b : budget) (ids finals : list N)
                       : res (budget * option (list N * list N)) :=
                       match es with
                       | [] => Ok (b, Some (ids, finals))
                       | (_, target) :: es' =>
                           do (b1, r) <- try_collect_nodes fuel' b h target ids finals;
                           match r with
                           | None => Ok (b1, None)
                           | Some (ids1, finals1) => each es' b1 ids1 finals1
                           end
                       end) (nedges n) b3 (id_insert source ids) (if nfin n then id_insert source finals else finals)
                end
            end
        end
  end.

(** collect_edges (serializer.cpp:82-93). *)
Fixpoint try_collect_edges (fuel : nat) (b : budget) (h : heap) (source : ptr) (edges : edge_map)
  : res (budget * option edge_map) :=
  match fuel with
  | O => OOF
  | S fuel' =>
      match spend b with
      | None => Ok (b, None)    (* std::function *)
      | Some b1 =>
          do n <- read h source;
          (fix each (es : list (char * ptr)) (b : budget) (edges : edge_map) : res (budget * option edge_map) :=
             match es with
             | [] => Ok (b, Some edges)
             | (label, target) :: es' =>
                 if edges_contains edges (source, label) then each es' b edges
                 else
                   match spend b with
                   | None => Ok (b, None)    (* edges[key] *)
                   | Some b1 =>
                       do (b2, r) <- try_collect_edges fuel' b1 h target (edges_insert edges (source, label) target);
                       match r with
                       | None => Ok (b2, None)
                       | Some edges1 => each es' b2 edges1
                       end
                   end
             end) (nedges n) b1 edges
      end
  end.

(** to_protobuf (serializer.cpp:95-126).  The flag tells whether the message
    object has been allocated; nothing deletes it if an exception passes. *)
Definition try_to_protobuf (fuel : nat) (b : budget) (h : heap) (d : dawg) : res (budget * bool * option message) :=
  match spend b with
  | None => Ok (b, false, None)    (* new llp::Dictionary *)
  | Some b1 =>
      do (b2, r) <- try_collect_nodes fuel b1 h (d_root d) [] [];
      match r with
      | None => Ok (b2, true, None)
      | Some (ids, finals) =>
          match spend_many (length ids + length finals) b2 with
          | None => Ok (Some O, true, None)    (* add_node_id, add_final_node_id *)
          | Some b3 =>
              do (b4, r) <- try_collect_edges fuel b3 h (d_root d) [];
              match r with
              | None => Ok (b4, true, None)
              | Some edges =>
                  match spend_many (length edges) b4 with
                  | None => Ok (Some O, true, None)    (* add_edge *)
                  | Some b5 =>
                      Ok (b5, true, Some (Message ids finals
                        (map (fun e => EdgeMsg (fst (fst e)) (label_to_msg (snd (fst e))) (snd e)) edges)
                        (d_root d) (d_size d)))
                  end
              end
          end
      end
  end.

(** What a call that saves comes to: a result, or an exception; the flag then
    tells whether a message object has been lost. *)
Inductive saving := Saved (ok : bool) | Interrupted (lost : bool).

(** serialize_protobuf(dawg, path) (serializer.cpp:30-41): the file has been
    truncated before to_protobuf is called, and the destructor of the stream
    closes it when an exception passes. *)
Definition try_serialize_file (fuel : nat) (b : budget) (size : N) split (opens : bool) (room : N)
  (old : option (list N)) (h : heap) (d : dawg) : res (saving * option (list N)) :=
  do (b1, allocated, r) <- try_to_protobuf fuel b h d;
  match r with
  | None => Ok (Interrupted allocated, if opens then Some [] else old)
  | Some m =>
      let (ok, f) := serialize_to size split (OFile opens [] [] room) m in
      Ok (Saved ok, if opens then Some (written (flush f [])) else old)
  end.

(** The loop creating the nodes (serializer.cpp:135-143).  A node belongs to
    nobody until it is in [nodes]; the map is lost with an exception, its nodes
    are not freed. *)
Fixpoint try_make_nodes (alloc : heap -> ptr) (b : budget) (h : heap) (finals ids : list N) (nodes : node_map)
  : budget * heap * option node_map :=
  match ids with
  | [] => (b, h, Some nodes)
  | id :: ids' =>
      match find_node nodes id with
      | Some _ => try_make_nodes alloc b h finals ids' nodes
      | None =>
          match spend b with
          | None => (b, h, None)    (* new DawgNode *)
          | Some b1 =>
              let (p, h1) := new_node alloc h (set_mem id finals) in
              match spend b1 with
              | None => (b1, h1, None)    (* nodes[node_id] *)
              | Some b2 => try_make_nodes alloc b2 h1 finals ids' ((id, p) :: nodes)
              end
          end
      end
  end.

(** [nodes[id]] makes an entry if there is none.  Simplification: the entry
    itself, which holds nullptr, is not kept, so that a second look-up counts
    again. *)
Definition look_up (b : budget) (nodes : node_map) (id : N) : option budget :=
  match find_node nodes id with Some _ => Some b | None => spend b end.

(** The loop adding the edges (serializer.cpp:145-153). *)
Fixpoint try_link_edges (b : budget) (h : heap) (nodes : node_map) (edges : list edge_msg)
  : res (budget * heap * bool) :=
  match edges with
  | [] => Ok (b, h, true)
  | e :: edges' =>
      match look_up b nodes (em_source e) with
      | None => Ok (b, h, false)
      | Some b1 =>
          match look_up b1 nodes (em_target e) with
          | None => Ok (b1, h, false)
          | Some b2 =>
              do (b3, h1, done) <- try_add_edge b2 h (node_at nodes (em_source e)) (label_of_msg (em_label e))
                                     (node_at nodes (em_target e));
              if negb done then Ok (b3, h1, false) else try_link_edges b3 h1 nodes edges'
          end
      end
  end.

(** from_protobuf (serializer.cpp:128-158). *)
Definition try_from_protobuf (alloc : heap -> ptr) (b : budget) (h : heap) (m : message)
  : res (budget * heap * option builder) :=
  match spend_many (length (m_finals m)) b with
  | None => Ok (Some O, h, None)    (* final_node_ids.insert *)
  | Some b1 =>
      let '(b2, h1, r) := try_make_nodes alloc b1 h (m_finals m) (m_nodes m) [] in
      match r with
      | None => Ok (b2, h1, None)
      | Some nodes =>
          do (b3, h2, done) <- try_link_edges b2 h1 nodes (m_edges m);
          if negb done then Ok (b3, h2, None)
          else
            match look_up b3 nodes (m_root m) with
            | None => Ok (b3, h2, None)
            | Some b4 =>
                match spend b4 with
                | None => Ok (b4, h2, None)    (* new SortedDawg *)
                | Some b5 => Ok (b5, h2, Some (Builder (Dawg (node_at nodes (m_root m)) (m_size m)) [] None))
                end
            end
      end
  end.

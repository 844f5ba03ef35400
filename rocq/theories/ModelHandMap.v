(** * ModelHandMap: nodes that are made with a map of edges. *)
From Verif Require Import Base ModelDawg ModelHand.

(** The functions of ModelHand, and new DawgNode(edges, final), where the program has
    made the map by assigning the nodes [es] to labels one after the other. *)
Inductive any_call : Type :=
| Plain (o : node_call)
| MakeWith (es : list (char * nat)) (final : bool).

(** [edges[label] = node;] for each of [es], starting with an empty map. *)
Definition map_of {A : Type} (es : list (char * A)) : list (char * A) :=
  fold_left (fun m e => edge_set m (fst e) (snd e)) es [].

Fixpoint addresses (ps : list ptr) (es : list (char * nat)) : res (list (char * ptr)) :=
  match es with
  | [] => Ok []
  | (c, y) :: es' =>
      do q <- deref (nth_error ps y);
      do out <- addresses ps es';
      Ok ((c, q) :: out)
  end.

(** DawgNode(std::map<char, DawgNode*>& edges, bool is_final) (dawg_node.cpp:10-13): the
    map is copied. *)
Definition perform_any (alloc : heap -> ptr) (h : heap) (ps : list ptr) (o : any_call) : res (heap * list ptr) :=
  match o with
  | Plain o => perform alloc h ps o
  | MakeWith es final =>
      do edges <- addresses ps es;
      let p := alloc h in
      Ok (hset h p (Node final (map_of edges)), ps ++ [p])
  end.

Fixpoint perform_any_all (alloc : heap -> ptr) (h : heap) (ps : list ptr) (os : list any_call) : res (heap * list ptr) :=
  match os with
  | [] => Ok (h, ps)
  | o :: os' =>
      do (h1, ps1) <- perform_any alloc h ps o;
      perform_any_all alloc h1 ps1 os'
  end.

(** * ModelUseCost: what comparing and saving dictionaries costs.

    The functions of ModelDawg and ModelSerial that visit nodes recursively, with
    the calls that they make. *)
From Verif Require Import Base ModelDawg ModelSerial.

(** DawgNode::operator== (dawg_node.cpp:53-71), with the calls of it: for each
    the labels of the edges that lead to the two nodes compared. *)
Fixpoint c_node_eq (fuel : nat) (h : heap) (a b : node) : res (bool * list str) :=
  match fuel with
  | O => OOF
  | S fuel' =>
      if negb (Bool.eqb (nfin a) (nfin b)) then Ok (false, [[]])
      else if negb (Nat.eqb (length (nedges a)) (length (nedges b))) then Ok (false, [[]])
      else
        do (r, calls) <-
          (fix each (es : list (char * ptr)) : res (bool * list str) :=
             match es with
             | [] => Ok (true, [])
             | (c, expected) :: es' =>
                 let actual := transition b c in
                 if N.eqb actual null then Ok (false, [])
                 else
                   do x <- read h expected;
                   do y <- read h actual;
                   do (e, calls) <- c_node_eq fuel' h x y;
                   if e then
                     do (r, more) <- each es';
                     Ok (r, map (cons c) calls ++ more)
                   else Ok (false, map (cons c) calls)
             end) (nedges a);
        Ok (r, [] :: calls)
  end.

(** Dawg::operator== (dawg.cpp:72-74). *)
Definition c_dawg_eq (fuel : nat) (h : heap) (d1 d2 : dawg) : res (bool * list str) :=
  if negb (N.eqb (d_size d1) (d_size d2)) then Ok (false, [])
  else
    do n1 <- read h (d_root d1);
    do n2 <- read h (d_root d2);
    c_node_eq fuel h n1 n2.

(** collect_nodes (serializer.cpp:68-80), with the number of calls of it. *)
Fixpoint c_collect_nodes (fuel : nat) (h : heap) (source : ptr) (ids finals : list N)
  : res (list N * list N * nat) :=
  match fuel with
  | O => OOF
  | S fuel' =>
      if set_mem source ids then Ok (ids, finals, 1)
      else
        do n <- read h source;
        (fix each (es : list (char * ptr)) (ids finals : list N) (calls : nat) : res (list N * list N * nat) :=
           match es with
           | [] => Ok (ids, finals, calls)
           | (_, target) :: es' =>
               do (ids1, finals1, more) <- c_collect_nodes fuel' h target ids finals;
               each es' ids1 finals1 (calls + more)
           end) (nedges n) (id_insert source ids) (if nfin n then id_insert source finals else finals) 1
  end.

(** collect_edges (serializer.cpp:82-93), with the number of calls of it. *)
Fixpoint c_collect_edges (fuel : nat) (h : heap) (source : ptr) (edges : edge_map) : res (edge_map * nat) :=
  match fuel with
  | O => OOF
  | S fuel' =>
      do n <- read h source;
      (fix each (es : list (char * ptr)) (edges : edge_map) (calls : nat) : res (edge_map * nat) :=
         match es with
         | [] => Ok (edges, calls)
         | (label, target) :: es' =>
             if edges_contains edges (source, label) then each es' edges calls
             else
               do (edges1, more) <- c_collect_edges fuel' h target (edges_insert edges (source, label) target);
               each es' edges1 (calls + more)
         end) (nedges n) edges 1
  end.

(** to_protobuf (serializer.cpp:95-126), with the numbers of calls of
    collect_nodes and of collect_edges. *)
Definition c_to_protobuf (fuel : nat) (h : heap) (d : dawg) : res (message * nat * nat) :=
  do (ids, finals, calls) <- c_collect_nodes fuel h (d_root d) [] [];
  do (edges, calls2) <- c_collect_edges fuel h (d_root d) [];
  Ok (Message ids finals
        (map (fun e => EdgeMsg (fst (fst e)) (label_to_msg (snd (fst e))) (snd e)) edges)
        (d_root d) (d_size d), calls, calls2).

(** * ModelHand: nodes that a caller makes and links by hand.

    A program that uses the public functions of DawgNode.  It names nodes by the
    order in which they were made: the first is 0.  The constructor that takes a map of
    edges is in ModelHandMap. *)
From Verif Require Import Base ModelDawg.

Inductive node_call : Type :=
| Make (final : bool)
| Mark (x : nat) (final : bool)
| Link (x : nat) (label : char) (y : nat).

(** new DawgNode(final) (dawg_node.cpp:15-17); is_final(bool) (dawg_node.cpp:19-21);
    add_edge (dawg_node.cpp:41-46).  [ps]: the addresses that new has returned. *)
Definition perform (alloc : heap -> ptr) (h : heap) (ps : list ptr) (o : node_call) : res (heap * list ptr) :=
  match o with
  | Make final => let p := alloc h in Ok (hset h p (Node final []), ps ++ [p])
  | Mark x final =>
      do p <- deref (nth_error ps x);
      do h1 <- set_final h p final;
      Ok (h1, ps)
  | Link x label y =>
      do p <- deref (nth_error ps x);
      do q <- deref (nth_error ps y);
      do h1 <- add_edge h p label q;
      Ok (h1, ps)
  end.

Fixpoint perform_all (alloc : heap -> ptr) (h : heap) (ps : list ptr) (os : list node_call) : res (heap * list ptr) :=
  match os with
  | [] => Ok (h, ps)
  | o :: os' =>
      do (h1, ps1) <- perform alloc h ps o;
      perform_all alloc h1 ps1 os'
  end.

(** * SpecAlloc: going through the results of a query while memory is limited (C97). *)
From Verif Require Import Base Spec ModelTransducer ModelDawg ModelQuery ModelState ModelMemory ModelShared ModelThrow.
Local Open Scope nat_scope.

Section Query.
  Context {R : Type} (rt : result_type R).
  Variables (fuel : nat) (al : allocators) (order : positions -> ptr -> bool) (h : heap) (alg : algorithm) (q : str) (n : N).

  (** Incrementing an iterator [k] times; [b] says how many allocations succeed, all
      increments together.  There is no iterator in the end if one has thrown. *)
  Fixpoint try_increments (k : nat) (b : budget) (w : world) (it : lazy_query R) : res (budget * world * option (lazy_query R)) :=
    match k with
    | O => Ok (b, w, Some it)
    | S k' =>
        do (b1, w1, it1, done) <- try_advance rt fuel al order h alg q n b w it;
        if (done : bool) then try_increments k' b1 w1 it1 else Ok (b1, w1, None)
    end.

  (** Beginning a query with the transducer [t], then incrementing the iterator. *)
  Definition try_query (k : nat) (b : budget) (w : world) (t : ptr) : res (budget * world * option (lazy_query R)) :=
    do (b1, w1, r) <- try_begin rt fuel al order h alg q n b w t;
    match r with
    | Some it => try_increments k b1 w1 it
    | None => Ok (b1, w1, None)
    end.
End Query.

(** How many positions a state has at most (C64). *)
Definition positions_at_most (alg : algorithm) (n : nat) : nat :=
  match alg with STANDARD => (n + 1) * (n + 1) | _ => (n + 1) * (n + 1) + n * n end.

(** * SpecMemory: programs that run queries, and what is in memory. *)
From Verif Require Import Base Spec ModelTransducer ModelDawg ModelQuery ModelState ModelMemory.

(** The three allocators return non-null addresses that are not in use. *)
Definition sound_allocators (al : allocators) : Prop :=
  mallocator (a_pos al) /\ mallocator (a_st al) /\ mallocator (a_int al).

(** The same objects are allocated, with the same contents. *)
Definition same_memory (w1 w2 : world) : Prop :=
  (forall p, mget (w_pos w1) p = mget (w_pos w2) p) /\
  (forall p, mget (w_st w1) p = mget (w_st w2) p) /\
  (forall p, mget (w_int w1) p = mget (w_int w2) p).

(** Everything that is allocated in [w1] is allocated in [w2] and unchanged. *)
Definition preserved (w1 w2 : world) : Prop :=
  (forall p x, mget (w_pos w1) p = Some x -> mget (w_pos w2) p = Some x) /\
  (forall p x, mget (w_st w1) p = Some x -> mget (w_st w2) p = Some x) /\
  (forall p x, mget (w_int w1) p = Some x -> mget (w_int w2) p = Some x).

(** What a program may do with a transducer: begin to iterate over the results
    of a query, increment the [i]-th of the iterators made so far, destroy it. *)
Inductive command :=
| Open (q : str) (n : N)
| Increment (i : nat)
| Close (i : nat).

Section Run.
  Context {R : Type} (rt : result_type R).
  Variables (fuel : nat) (al : allocators) (order : positions -> ptr -> bool).
  Variables (h : heap) (alg : algorithm) (t : ptr).

  (** An iterator, with the query and the number of increments so far; [None]
      once it has been destroyed. *)
  Definition slot := option (str * N * nat * lazy_query R).

  Fixpoint put (ss : list slot) (i : nat) (s : slot) : list slot :=
    match ss, i with
    | [], _ => []
    | _ :: ss', O => s :: ss'
    | s0 :: ss', S i' => s0 :: put ss' i' s
    end.

  (** Commands for iterators that do not exist are skipped. *)
  Definition run_one (c : command) (w : world) (ss : list slot) : res (world * list slot) :=
    match c with
    | Open q n =>
        do (w1, it) <- lazy_begin rt fuel al order h alg q n w t;
        Ok (w1, ss ++ [Some (q, n, O, it)])
    | Increment i =>
        match nth_error ss i with
        | Some (Some (q, n, k, it)) =>
            do (w1, it1) <- lazy_advance rt fuel al order h alg q n w it;
            Ok (w1, put ss i (Some (q, n, S k, it1)))
        | _ => Ok (w, ss)
        end
    | Close i =>
        match nth_error ss i with
        | Some (Some (q, n, k, it)) =>
            do w1 <- lazy_destroy fuel w it;
            Ok (w1, put ss i None)
        | _ => Ok (w, ss)
        end
    end.

  Fixpoint run (cs : list command) (w : world) (ss : list slot) : res (world * list slot) :=
    match cs with
    | [] => Ok (w, ss)
    | c :: cs' => do (w1, ss1) <- run_one c w ss; run cs' w1 ss1
    end.

  (** Destroying all iterators that still exist. *)
  Fixpoint close_all (w : world) (ss : list slot) : res world :=
    match ss with
    | [] => Ok w
    | Some (_, _, _, it) :: ss' => do w1 <- lazy_destroy fuel w it; close_all w1 ss'
    | None :: ss' => close_all w ss'
    end.
End Run.

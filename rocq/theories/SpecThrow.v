(** * SpecThrow: programs that go on after std::bad_alloc. *)
From Verif Require Import Base Spec ModelTransducer ModelDawg ModelQuery ModelState ModelMemory ModelShared
  ModelThrow SpecMemory.

(** [l] is [l'] with some of its elements left out. *)
Inductive subsequence {A : Type} : list A -> list A -> Prop :=
| subsequence_nil : subsequence [] []
| subsequence_take : forall x l l', subsequence l l' -> subsequence (x :: l) (x :: l')
| subsequence_skip : forall x l l', subsequence l l' -> subsequence l (x :: l').

Section Run.
  Context {R : Type} (rt : result_type R).
  Variables (fuel : nat) (al : allocators) (order : positions -> ptr -> bool).
  Variables (h : heap) (alg : algorithm) (t : ptr).

  (** An iterator that has been begun and not destroyed: its query, what it has
      shown, whether one of its increments has thrown, and the iterator itself. *)
  Record holder := Holder {
    term_of : str; bound_of : N; shown : list R; interrupted : bool; iterator_of : lazy_query R }.

  (** What can be seen on an iterator: nothing if it is at its end. *)
  Definition visible (it : lazy_query R) : list R :=
    if l_complete it then [] else [l_candidate it].

  Fixpoint replace {A : Type} (l : list A) (i : nat) (x : A) : list A :=
    match l, i with
    | [], _ => []
    | _ :: l', O => x :: l'
    | y :: l', S i' => y :: replace l' i' x
    end.

  (** A command, with the number of allocations after which one fails.  The
      program catches the exception and goes on; the flag tells whether there was
      one. *)
  Definition attempt_one (c : command) (b : budget) (w : world) (hs : list (option holder))
    : res (world * list (option holder) * bool) :=
    match c with
    | Open q n =>
        do (_, w1, r) <- try_begin rt fuel al order h alg q n b w t;
        Ok (match r with
            | Some it => (w1, hs ++ [Some (Holder q n (visible it) false it)], false)
            | None => (w1, hs ++ [None], true)
            end)
    | Increment i =>
        match nth_error hs i with
        | Some (Some x) =>
            do (_, w1, it, done) <- try_advance rt fuel al order h alg (term_of x) (bound_of x) b w (iterator_of x);
            Ok (if (done : bool)
                then (w1, replace hs i (Some (Holder (term_of x) (bound_of x) (shown x ++ visible it) (interrupted x) it)), false)
                else (w1, replace hs i (Some (Holder (term_of x) (bound_of x) (shown x) true it)), true))
        | _ => Ok (w, hs, false)
        end
    | Close i =>
        match nth_error hs i with
        | Some (Some x) =>
            do w1 <- lazy_destroy fuel w (iterator_of x);
            Ok (w1, replace hs i None, false)
        | _ => Ok (w, hs, false)
        end
    end.

  (** The last component counts the exceptions. *)
  Fixpoint attempts (cs : list (command * budget)) (w : world) (hs : list (option holder))
    : res (world * list (option holder) * nat) :=
    match cs with
    | [] => Ok (w, hs, O)
    | (c, b) :: cs' =>
        do (w1, hs1, threw) <- attempt_one c b w hs;
        do (w2, hs2, caught) <- attempts cs' w1 hs1;
        Ok (w2, hs2, if (threw : bool) then S caught else caught)
    end.

  (** Destroying all iterators that still exist. *)
  Fixpoint destroy_all (w : world) (hs : list (option holder)) : res world :=
    match hs with
    | [] => Ok w
    | Some x :: hs' => do w1 <- lazy_destroy fuel w (iterator_of x); destroy_all w1 hs'
    | None :: hs' => destroy_all w hs'
    end.
End Run.

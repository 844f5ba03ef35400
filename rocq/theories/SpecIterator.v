(** * SpecIterator: programs that iterate over a dictionary. *)
From Verif Require Import Base Spec ModelTransducer ModelDawg ModelState ModelIterator.

(** Begin an iteration, increment or destroy the [i]-th iterator made so far. *)
Inductive iteration :=
| Begin
| Next (i : nat)
| Drop (i : nat).

Section Iterations.
  Variables (fuel : nat) (alloc : mem pcell -> ptr) (h : heap) (d : dawg).

  (** An iterator with the number of increments so far, [None] once it has been
      destroyed. *)
  Definition cursor := option (nat * diter).

  Fixpoint place (cs : list cursor) (i : nat) (c : cursor) : list cursor :=
    match cs, i with
    | [], _ => []
    | _ :: cs', O => c :: cs'
    | c0 :: cs', S i' => c0 :: place cs' i' c
    end.

  (** Commands for iterators that do not exist are skipped. *)
  Definition iteration_step (x : iteration) (m : mem pcell) (cs : list cursor) : res (mem pcell * list cursor) :=
    match x with
    | Begin =>
        do (m1, it) <- diter_begin fuel alloc h m d;
        Ok (m1, cs ++ [Some (O, it)])
    | Next i =>
        match nth_error cs i with
        | Some (Some (k, it)) =>
            do (m1, it1) <- diter_next fuel alloc h m it;
            Ok (m1, place cs i (Some (S k, it1)))
        | _ => Ok (m, cs)
        end
    | Drop i =>
        match nth_error cs i with
        | Some (Some (k, it)) =>
            do m1 <- diter_destroy m it;
            Ok (m1, place cs i None)
        | _ => Ok (m, cs)
        end
    end.

  Fixpoint iterations (xs : list iteration) (m : mem pcell) (cs : list cursor) : res (mem pcell * list cursor) :=
    match xs with
    | [] => Ok (m, cs)
    | x :: xs' => do (m1, cs1) <- iteration_step x m cs; iterations xs' m1 cs1
    end.

  (** Destroying all iterators that still exist. *)
  Fixpoint drop_all (m : mem pcell) (cs : list cursor) : res (mem pcell) :=
    match cs with
    | [] => Ok m
    | Some (_, it) :: cs' => do m1 <- diter_destroy m it; drop_all m1 cs'
    | None :: cs' => drop_all m cs'
    end.
End Iterations.

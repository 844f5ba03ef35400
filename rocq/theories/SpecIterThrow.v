(** * SpecIterThrow: programs that go on iterating after std::bad_alloc. *)
From Verif Require Import Base Spec ModelTransducer ModelDawg ModelState ModelIterator ModelThrow ModelIterThrow.

(** [++it] once for every budget.  An increment that throws is caught and gives
    [None], one that returns gives what the iterator then shows. *)
Fixpoint increments (fuel : nat) (alloc : mem pcell -> ptr) (h : heap) (m : mem pcell) (it : diter) (bs : list budget)
  : res (mem pcell * diter * list (option str)) :=
  match bs with
  | [] => Ok (m, it, [])
  | b :: bs' =>
      do (_, m1, it1, done) <- try_diter_next fuel alloc h b m it;
      do (m2, it2, seen) <- increments fuel alloc h m1 it1 bs';
      Ok (m2, it2, (if (done : bool) then Some (di_value it1) else None) :: seen)
  end.

(** What the increments that returned have shown. *)
Fixpoint returned (seen : list (option str)) : list str :=
  match seen with
  | [] => []
  | Some v :: seen' => v :: returned seen'
  | None :: seen' => returned seen'
  end.

(** How many increments threw. *)
Definition thrown (seen : list (option str)) : nat := length seen - length (returned seen).

(** The same objects as in [base], and at most [n] more. *)
Definition leaks_at_most (n : nat) (m base : mem pcell) : Prop :=
  exists leaked, length leaked <= n /\ NoDup leaked /\
    (forall p, In p leaked -> mget base p = None /\ mget m p <> None) /\
    (forall p, ~ In p leaked -> mget m p = mget base p).

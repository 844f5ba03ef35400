(** * ModelDistThrow: threads that share a distance function and catch exceptions.

    The steps of ModelThreads, with exceptions: copying strings, substr, taking
    the lock and inserting into the memo may throw (standard_distance.cpp:6-24,
    memoized_distance.cpp:9-31).  The thread catches the exception and makes its
    next call. *)
From Verif Require Import Base Spec ModelDistance ModelThreads.

Inductive activity :=
| Idle                        (* no calls left *)
| Calling (x : thread nat)    (* in between *)
| Unwinding.                  (* an exception in set; about to run the destructor of [writer] *)

(** A thread: what its calls came to ([None]: an exception), what it is doing,
    and the calls it has yet to make. *)
Record client := Client { outcomes : list (option nat); now : activity; todo : list (str * str) }.

(** The next call. *)
Definition next_call (alg : algorithm) (os : list (option nat)) (cs : list (str * str)) : client :=
  match cs with
  | [] => Client os Idle []
  | (v, w) :: cs' => Client os (Calling (Running (between alg v w))) cs'
  end.

(** The flag says whether an exception is thrown in this step. *)
Inductive client_step (alg : algorithm) : bool -> shared -> client -> shared -> client -> Prop :=
| client_runs : forall s x s' x' os cs, lock_step s x s' x' ->
    client_step alg false s (Client os (Calling x) cs) s' (Client os (Calling x') cs)
| client_returns : forall s d os cs,
    client_step alg false s (Client os (Calling (Running (Ret d))) cs) s (next_call alg (os ++ [Some d]) cs)
(** Outside of get and set, or before the lock is taken: the constructor of the
    key, substr, f, and the lock itself (standard_distance.cpp:7,23-29,
    memoized_distance.cpp:10,21,28). *)
| client_throws : forall s p os cs,
    (forall d, p <> Ret d) ->
    client_step alg true s (Client os (Calling (Running p)) cs) s (next_call alg (os ++ [None]) cs)
(** In [memo.find(key)] (memoized_distance.cpp:11); the destructor of [reader]
    runs. *)
| client_throws_get : forall r w t ch k i c os cs,
    client_step alg true (Shared r w t ch) (Client os (Calling (Searching k i c)) cs)
      (Shared (r - 1) w t ch) (next_call alg (os ++ [None]) cs)
(** In [memo\[key\] = distance] (22), before or after the table has been
    touched: operator\[\] has no effect if it throws. *)
| client_throws_set : forall s k d c os cs,
    client_step alg true s (Client os (Calling (Storing k d c)) cs) s (Client os Unwinding cs)
| client_throws_insert : forall r w t ch k d c os cs,
    client_step alg true (Shared r w t ch) (Client os (Calling (Halfway k d c)) cs)
      (Shared r w t false) (Client os Unwinding cs)
(** The destructor of [writer] (23). *)
| client_unlocks : forall r w t ch os cs,
    client_step alg false (Shared r w t ch) (Client os Unwinding cs)
      (Shared r false t ch) (next_call alg (os ++ [None]) cs).

(** Some thread takes a step. *)
Inductive clients_step (alg : algorithm) : bool -> shared * list client -> shared * list client -> Prop :=
| clients_step_at : forall e s s' pre x x' post, client_step alg e s x s' x' ->
    clients_step alg e (s, pre ++ x :: post) (s', pre ++ x' :: post).

(** [n] steps, of which [k] throw an exception. *)
Inductive clients_steps (alg : algorithm) : nat -> nat -> shared * list client -> shared * list client -> Prop :=
| clients_done : forall c, clients_steps alg 0 0 c c
| clients_more : forall n k (e : bool) c c' c'', clients_step alg e c c' -> clients_steps alg n k c' c'' ->
    clients_steps alg (S n) ((if e then 1 else 0) + k) c c''.

(** * ModelThreads: get and set of the memo step by step, with the lock.

    ModelDistance.v takes each call of get and set as one atomic action.  Here
    they consist of taking the lock, looking at or changing the table in several
    steps, and releasing the lock (memoized_distance.cpp:9-24).  A table that is
    looked at while it is being changed may show anything. *)
From Verif Require Import Base Spec ModelDistance.

(** What a thread is doing.  [c] is what it does afterwards. *)
Inductive thread (A : Type) : Type :=
| Running (p : prog A)                                     (* outside get and set *)
| Searching (k : key) (i : nat) (c : option nat -> prog A) (* in get; has seen [i] entries, none of them for [k] *)
| Found (o : option nat) (c : option nat -> prog A)        (* in get; about to return [o] *)
| Storing (k : key) (d : nat) (c : prog A)                 (* in set; about to change the table *)
| Halfway (k : key) (d : nat) (c : prog A)                 (* in set; changing the table *)
| Stored (c : prog A).                                     (* in set; about to return *)
Arguments Running {A} p.
Arguments Searching {A} k i c.
Arguments Found {A} o c.
Arguments Storing {A} k d c.
Arguments Halfway {A} k d c.
Arguments Stored {A} c.

(** What the threads share: the std::shared_mutex, as the number of readers and
    whether there is a writer, and the table, which may be under change
    (memoized_distance.h:52-56). *)
Record shared := Shared { readers : nat; writer : bool; table : memo; changing : bool }.

Inductive lock_step {A : Type} : shared -> thread A -> shared -> thread A -> Prop :=
(** [std::shared_lock reader(mutex);] (memoized_distance.cpp:10) waits for the writer to leave. *)
| step_lock_shared : forall r t ch k c,
    lock_step (Shared r false t ch) (Running (GetM k c)) (Shared (S r) false t ch) (Searching k 0 c)
(** [memo.find(key)] (11-15), one entry after the other. *)
| step_look : forall r w t k i c,
    lock_step (Shared r w t false) (Searching k i c) (Shared r w t false)
      (match nth_error t i with
       | None => Found None c
       | Some (k', d) => if key_eqb k' k then Found (Some d) c else Searching k (S i) c
       end)
| step_look_racing : forall r w t k i c o,
    lock_step (Shared r w t true) (Searching k i c) (Shared r w t true) (Found o c)
(** The destructor of [reader] (14, 16). *)
| step_unlock_shared : forall r w t ch o c,
    lock_step (Shared r w t ch) (Found o c) (Shared (r - 1) w t ch) (Running (c o))
(** [std::unique_lock writer(mutex);] (21) waits for everybody to leave. *)
| step_lock : forall t ch k d c,
    lock_step (Shared 0 false t ch) (Running (SetM k d c)) (Shared 0 true t ch) (Storing k d c)
(** [memo\[key\] = distance;] (22), from its beginning to its end. *)
| step_begin_store : forall r w t k d c,
    lock_step (Shared r w t false) (Storing k d c) (Shared r w t true) (Halfway k d c)
| step_begin_store_racing : forall r w t t' k d c,
    lock_step (Shared r w t true) (Storing k d c) (Shared r w t' true) (Halfway k d c)
| step_end_store : forall r w t ch k d c,
    lock_step (Shared r w t ch) (Halfway k d c) (Shared r w (memo_set t k d) false) (Stored c)
(** The destructor of [writer] (23). *)
| step_unlock : forall r w t ch c,
    lock_step (Shared r w t ch) (Stored c) (Shared r false t ch) (Running c).

(** Some thread takes a step. *)
Inductive threads_step {A : Type} : shared * list (thread A) -> shared * list (thread A) -> Prop :=
| threads_step_at : forall s s' pre x x' post, lock_step s x s' x' ->
    threads_step (s, pre ++ x :: post) (s', pre ++ x' :: post).

Inductive threads_steps {A : Type} : nat -> shared * list (thread A) -> shared * list (thread A) -> Prop :=
| threads_done : forall c, threads_steps 0 c c
| threads_more : forall n c c' c'', threads_step c c' -> threads_steps n c' c'' -> threads_steps (S n) c c''.

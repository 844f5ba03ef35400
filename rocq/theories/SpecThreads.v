(** * SpecThreads: vocabulary for statements about threads and the lock. *)
From Verif Require Import Base Spec ModelDistance ModelThreads.

(** The threads of a new Distance object: nobody holds the lock, the memo is
    empty, thread i is about to make the calls [nth i css]. *)
Definition started (alg : algorithm) (css : list (list (str * str))) : shared * list (thread (list nat)) :=
  (Shared 0 false [] false, map (fun cs => Running (calls alg cs)) css).

(** The next step of a thread reads or writes the table. *)
Definition about_to_write {A : Type} (x : thread A) : Prop :=
  match x with Storing _ _ _ | Halfway _ _ _ => True | _ => False end.
Definition about_to_access {A : Type} (x : thread A) : Prop :=
  match x with Searching _ _ _ | Storing _ _ _ | Halfway _ _ _ => True | _ => False end.

(** A data race: one of two threads is about to write the table, the other to
    read or write it. *)
Definition data_race {A : Type} (xs : list (thread A)) : Prop :=
  exists i j x y, i <> j /\ nth_error xs i = Some x /\ nth_error xs j = Some y /\ about_to_write x /\ about_to_access y.

(** A thread is inside get or set and has the lock. *)
Definition has_lock {A : Type} (x : thread A) : Prop := match x with Running _ => False | _ => True end.

Definition can_step {A : Type} (s : shared) (x : thread A) : Prop := exists s' x', lock_step s x s' x'.

(** The same situation if get and set happened in one instant: get when it has
    seen enough of the table, set when it has changed the table. *)
Definition in_one_instant {A : Type} (x : thread A) : prog A :=
  match x with
  | Running p => p
  | Searching k _ c => GetM k c
  | Found o c => c o
  | Storing k d c | Halfway k d c => SetM k d c
  | Stored c => c
  end.

(** An execution in critical sections; the list says whose turn it was. *)
Inductive scheduled {A : Type} : list nat -> memo * list (prog A) -> memo * list (prog A) -> Prop :=
| scheduled_done : forall c, scheduled [] c c
| scheduled_more : forall turns m m' pre p p' post c, thread_step m p m' p' ->
    scheduled turns (m', pre ++ p' :: post) c -> scheduled (length pre :: turns) (m, pre ++ p :: post) c.

Definition turns_of (i : nat) (turns : list nat) : nat := count_occ Nat.eq_dec turns i.

(** The number of pairs of a suffix of [v] and a suffix of [w]. *)
Definition suffix_pairs (vw : str * str) : nat := (1 + length (fst vw)) * (1 + length (snd vw)).

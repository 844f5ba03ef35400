(** * SpecShared: vocabulary for statements about threads that share a transducer. *)
From Verif Require Import Base Spec ModelTransducer ModelDawg ModelState ModelMemory SpecMemory ModelShared.

(** The next access of a program is to the object at this address; it overwrites
    or releases the object. *)
Inductive accesses {A : Type} : program A -> class -> ptr -> Prop :=
| accesses_read : forall c p k, accesses (Read c p k) c p
| accesses_write : forall c p x k, accesses (Write c p x k) c p
| accesses_free : forall c p k, accesses (Free c p k) c p
| accesses_choose : forall p x q k, accesses (Choose p x q k) OfPosition p.

Inductive modifies {A : Type} : program A -> class -> ptr -> Prop :=
| modifies_write : forall c p x k, modifies (Write c p x k) c p
| modifies_free : forall c p k, modifies (Free c p k) c p
| modifies_choose : forall p x q k, modifies (Choose p x q k) OfPosition p.

(** Two threads are about to access the same object, one of them to modify it. *)
Definition data_race {A : Type} (ts : list (program A)) : Prop :=
  exists i j p q c a, i <> j /\ nth_error ts i = Some p /\ nth_error ts j = Some q /\
    modifies p c a /\ accesses q c a.

(** The iterators that a thread has after its commands: the query and the number
    of increments, [None] if it has been destroyed. *)
Definition expected_one (c : command) (es : list (option (str * N * nat))) : list (option (str * N * nat)) :=
  match c with
  | Open q n => es ++ [Some (q, n, O)]
  | Increment i =>
      firstn i es ++ match skipn i es with
                     | Some (q, n, k) :: rest => Some (q, n, S k) :: rest
                     | rest => rest
                     end
  | Close i => firstn i es ++ match skipn i es with _ :: rest => None :: rest | [] => [] end
  end.
Definition expected (cs : list command) : list (option (str * N * nat)) :=
  fold_left (fun es c => expected_one c es) cs [].

Definition which {R : Type} (s : slot (R := R)) : option (str * N * nat) :=
  match s with Some (q, n, k, _) => Some (q, n, k) | None => None end.

(** All iterators of a thread that has finished are destroyed. *)
Definition all_closed {R : Type} (p : program (list (slot (R := R)))) : Prop :=
  exists ss, p = Return ss /\ forall s, In s ss -> s = None.

(** * SpecDistThrow: vocabulary for threads that catch exceptions. *)
From Verif Require Import Base Spec ModelDistance ModelThreads SpecDistance SpecThreads ModelDistThrow.

(** A new Distance object and threads about to make the calls [nth i css]. *)
Definition clients_start (alg : algorithm) (css : list (list (str * str))) : shared * list client :=
  (Shared 0 false [] false, map (next_call alg []) css).

(** What a call came to is right: the distance, or an exception. *)
Definition right_or_thrown (alg : algorithm) (vw : str * str) (o : option nat) : Prop :=
  match o with Some d => correct alg vw d | None => True end.

Definition client_holds_lock (c : client) : Prop :=
  match now c with Idle => False | Calling x => has_lock x | Unwinding => True end.

(** The thread can take a step without an exception. *)
Definition client_goes_on (alg : algorithm) (s : shared) (c : client) : Prop :=
  exists s' c', client_step alg false s c s' c'.

(** The calls of a thread that ended with an exception, the one it is leaving
    included. *)
Definition exceptions (c : client) : nat :=
  length (filter (fun o => match o with None => true | Some _ => false end) (outcomes c)) +
  match now c with Unwinding => 1 | _ => 0 end.

(** A step reads or writes the table. *)
Definition client_writes (c : client) : Prop := match now c with Calling x => about_to_write x | _ => False end.
Definition client_accesses (c : client) : Prop := match now c with Calling x => about_to_access x | _ => False end.

Definition clients_race (xs : list client) : Prop :=
  exists i j x y, i <> j /\ nth_error xs i = Some x /\ nth_error xs j = Some y /\
    client_writes x /\ client_accesses y.

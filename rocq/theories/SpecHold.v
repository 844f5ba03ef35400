(** * SpecHold: vocabulary for statements about what a query holds in memory. *)
From Verif Require Import Base Spec ModelTransducer ModelDawg ModelState.

(** The objects that are in the memory [m'] and were not in [m] are those at the
    addresses [ps]. *)
Definition new_objects {A : Type} (m m' : mem A) (ps : list ptr) : Prop :=
  NoDup ps /\ forall p, In p ps <-> mget m p = None /\ mget m' p <> None.

(** The prefix [w] of a term is worth keeping if some string, in the dictionary or
    not, that starts with [w] is close enough to the query. *)
Definition worth_keeping (alg : algorithm) (terms : list str) (q : str) (n : N) (w : str) : Prop :=
  w <> [] /\ (exists u, In (w ++ u) terms) /\
  exists z k, edit_distance alg q (w ++ z) k /\ (N.of_nat k <= n)%N.

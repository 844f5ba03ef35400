(** * SpecSame: dictionaries that cannot be told apart by strings. *)
From Coq Require Import Sorting.Sorted.
From Verif Require Import Base ModelDawg SpecDawg.

(** The same strings are terms, and the same strings lead somewhere. *)
Definition same_strings (h1 : heap) (p1 : ptr) (h2 : heap) (p2 : ptr) : Prop :=
  forall w, (accepts_from h1 p1 w <-> accepts_from h2 p2 w) /\ ((exists q, path h1 p1 w q) <-> (exists q, path h2 p2 w q)).

(** One can go round. *)
Definition rounds (h : heap) (p : ptr) : Prop := exists v q c w, path h p v q /\ path h q (c :: w) q.

(** Every node that one gets to exists, and its edges are in the order of a map. *)
Definition sound (h : heap) (p : ptr) : Prop :=
  forall w q, path h p w q -> q <> null /\ exists n, hget h q = Some n /\ StronglySorted (fun a b => (schar (fst a) < schar (fst b))%Z) (nedges n).

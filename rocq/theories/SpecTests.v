(** * SpecTests: what it means that a test passes. *)
From Verif Require Import Base Spec ModelState ModelDawg SpecDawg ModelTests.

(** The test ends, no assertion fails, and what is left at the end is as [P] says. *)
Definition passes {A : Type} (test : nat -> res (verdict A)) (P : A -> Prop) : Prop :=
  exists enough, forall fuel, enough <= fuel -> exists x, test fuel = Ok (Passed x) /\ P x.

(** The test ends with a failed assertion. *)
Definition fails {A : Type} (test : nat -> res (verdict A)) : Prop := runs_to test Failed.

(** The same objects with the same contents. *)
Definition same_memory {A : Type} (m1 m2 : mem A) : Prop := forall p, mget m1 p = mget m2 p.

(** Apart from [k] new nodes, [h1] is as [h2]. *)
Definition but_for (k : nat) (h1 h2 : heap) : Prop :=
  exists ps, length ps = k /\ NoDup ps /\ (forall p, In p ps -> allocated h1 p /\ ~ allocated h2 p) /\
    forall p, ~ In p ps -> hget h1 p = hget h2 p.

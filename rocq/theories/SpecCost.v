(** * SpecCost: vocabulary for statements about the cost of destruction and hashing. *)
From Verif Require Import Base ModelDawg ModelSerial.
Local Open Scope nat_scope.

(** The message of a dictionary with node ids [1 .. n+1], the last one final, and
    two edges, 'a' and 'b', from each id to the next: all strings of length [n]
    over these two letters. *)
Definition ladder (n : nat) : message :=
  Message (map N.of_nat (seq 1 (S n))) [N.of_nat (S n)]
    (flat_map (fun i => [EdgeMsg (N.of_nat i) 97 (N.of_nat (S i)); EdgeMsg (N.of_nat i) 98 (N.of_nat (S i))]) (seq 1 n))
    1 ((2 ^ N.of_nat n) mod W).

(** The prefixes of the terms, each listed once. *)
Definition lists_prefixes (terms prefixes : list str) : Prop :=
  NoDup prefixes /\ forall w, In w prefixes <-> w = [] \/ exists u, In (w ++ u) terms.

(** The number of characters of some strings. *)
Definition total_length (l : list str) : nat := list_sum (map (@length _) l).

(** [w] begins with [r]. *)
Fixpoint begins (r w : str) : bool :=
  match r, w with
  | [], _ => true
  | c :: r', d :: w' => ceqb c d && begins r' w'
  | _ :: _, [] => false
  end.

(** The same endings make terms of [u] and of [v]. *)
Definition same_endings (terms : list str) (u v : str) : Prop :=
  forall x, In (u ++ x) terms <-> In (v ++ x) terms.

(** One prefix, not empty, for every set of endings. *)
Definition representatives (terms reps : list str) : Prop :=
  NoDup reps /\ (forall r, In r reps -> r <> [] /\ exists u, In (r ++ u) terms) /\
  (forall r s, In r reps -> In s reps -> same_endings terms r s -> r = s) /\
  (forall w u, w <> [] -> In (w ++ u) terms -> exists r, In r reps /\ same_endings terms w r).

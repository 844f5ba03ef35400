(** * SpecGraft: dictionaries that were changed by hand. *)
From Verif Require Import Base Spec ModelTransducer ModelDawg ModelQuery SpecDawg SpecQuery SpecSnapshot SpecLimits.

(** [u] and [v] can be completed to terms in the same ways. *)
Definition same_endings (terms : list str) (u v : str) : Prop := forall s, In (u ++ s) terms <-> In (v ++ s) terms.

(** [w] goes on with [c] after a prefix that can be completed as [v] can. *)
Definition behind (terms : list str) (v : str) (c : char) (w : str) : Prop := exists u s, w = u ++ c :: s /\ same_endings terms u v.

(** What is asked of the dictionary is answered as if its terms were those for which
    [term] holds.  Iterating lists as many as its size says, the last one again and
    again if there are fewer. *)
Record answers_for (term : str -> Prop) (h : heap) (d : dawg) : Prop := {
  af_contains : forall w, (N.of_nat (length w) <= 2147483647)%N -> exists b, contains h d w = Ok b /\ (b = true <-> term w);
  af_query : forall R (rt : result_type R) alg x n, manageable x n -> (n <= SIZE_MAX)%N -> (N.of_nat (length x) + n + 1 < 2 ^ 62)%N ->
    exists answers, lists alg x n term answers /\ sorted_by shortlex_lt (map fst answers) /\
      yields rt alg h d x n (map (fun a => r_update rt (fst a) (snd a)) answers);
  af_iterate : (d_size d < 2 ^ 64)%N -> exists all, sorted_by shortlex_lt all /\ (forall w, In w all <-> term w) /\
    runs_to (fun fuel => iterate fuel h d) (firstn (N.to_nat (d_size d)) (all ++ repeat (List.last all []) (N.to_nat (d_size d))));
}.

(** * SpecStory: a history of calls that would have made the nodes of a dictionary. *)
From Coq Require Import Sorting.Sorted.
From Verif Require Import Base ModelDawg ModelHand SpecDawg SpecHand.
Local Open Scope nat_scope.

(** [hist] retells how the nodes that one gets to from [root] came about: as if they had
    been made in the order of [nodes], the root first, and then linked. *)
Record retells (h : heap) (root : ptr) (hist : list node_call) (nodes : list ptr) : Prop := {
  re_orderly : orderly hist;
  re_number : length nodes = length (made hist);
  re_kept : forall x, x < length nodes -> exists_still hist x;
  re_root : nth_error nodes 0 = Some root;
  re_nodes : forall q, In q nodes <-> reach h root q;
  re_once : NoDup nodes;
  re_there : forall q, In q nodes -> q <> null /\ exists n, hget h q = Some n /\ StronglySorted (fun a b => (schar (fst a) < schar (fst b))%Z) (nedges n);
  re_paths : forall w q, path h root w q <-> exists x, destination hist 0 w = Some x /\ nth_error nodes x = Some q;
  re_terms : forall w, accepts_from h root w <-> term_of hist 0 w;
}.

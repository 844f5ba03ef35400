(** * SpecUseCost: where a comparison of two dictionaries stops. *)
From Verif Require Import Base Spec SpecCost.
Local Open Scope nat_scope.

(** [w] is a prefix of a term (the empty string always counts as one). *)
Definition is_prefix (terms : list str) (w : str) : Prop := w = [] \/ exists u, In (w ++ u) terms.

(** [n] characters can follow the prefix [w]. *)
Definition can_follow (terms : list str) (w : str) (n : nat) : Prop :=
  exists cs, NoDup cs /\ (forall c, In c cs <-> exists u, In (w ++ c :: u) terms) /\ length cs = n.

(** The comparison of the terms [terms1] with the terms [terms2] notices at [w] that
    they are different: [w] is a prefix only of the former; or it is a term of one
    of them only; or different numbers of characters can follow it. *)
Definition noticed (terms1 terms2 : list str) (w : str) : Prop :=
  is_prefix terms1 w /\
  (~ is_prefix terms2 w \/ ~ (In w terms1 <-> In w terms2) \/
   exists n1 n2, can_follow terms1 w n1 /\ can_follow terms2 w n2 /\ n1 <> n2).

(** * SpecHandMap: histories in which nodes are made with a map of edges. *)
From Verif Require Import Base ModelDawg ModelHand ModelHandMap SpecHand.
Local Open Scope nat_scope.

(** The node that the label [c] was assigned last. *)
Definition assigned (es : list (char * nat)) (c : char) : option nat :=
  fold_left (fun last e => if ceqb (fst e) c then Some (snd e) else last) es None.

(** [plainly k hist plain]: [plain] is the history [hist], begun when there are [k]
    nodes, in which making a node with edges is written as making it and linking it, in
    some order, to the nodes that were assigned to the labels. *)
Inductive plainly : nat -> list any_call -> list node_call -> Prop :=
| plainly_nil : forall k, plainly k [] []
| plainly_make : forall k b hist plain, plainly (S k) hist plain -> plainly k (Plain (Make b) :: hist) (Make b :: plain)
| plainly_mark : forall k x b hist plain, plainly k hist plain -> plainly k (Plain (Mark x b) :: hist) (Mark x b :: plain)
| plainly_link : forall k x c y hist plain, plainly k hist plain -> plainly k (Plain (Link x c y) :: hist) (Link x c y :: plain)
| plainly_with : forall k es b links hist plain,
    (forall c y, In (c, y) es -> y < k) ->
    NoDup (map fst links) -> (forall c y, In (c, y) links <-> assigned es c = Some y) ->
    plainly (S k) hist plain ->
    plainly k (MakeWith es b :: hist) (Make b :: map (fun e => Link k (fst e) (snd e)) links ++ plain).

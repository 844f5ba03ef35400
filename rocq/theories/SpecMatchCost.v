(** * SpecMatchCost: vocabulary for statements about comparisons while building. *)
From Verif Require Import Base ModelDawg SpecDawg SpecCost.
Local Open Scope nat_scope.

(** The node that [w] leads to from the node at [p]. *)
Fixpoint node_at (h : heap) (p : ptr) (w : str) : option node :=
  match hget h p with
  | None => None
  | Some n =>
      match w with
      | [] => Some n
      | c :: w' => match edge_get (nedges n) c with None => None | Some q => node_at h q w' end
      end
  end.

(** Prefixes that are not empty and that different endings make terms of lead to
    nodes with different hash codes. *)
Definition no_collisions (h : heap) (root : ptr) (terms : list str) : Prop :=
  forall u v nu nv code, u <> [] -> v <> [] -> node_at h root u = Some nu -> node_at h root v = Some nv ->
    runs_to (fun fuel => node_hash fuel h nu) code -> runs_to (fun fuel => node_hash fuel h nv) code -> same_endings terms u v.

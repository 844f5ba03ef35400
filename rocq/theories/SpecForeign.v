(** * SpecForeign: what an arbitrary message stands for.

    The edges of a message are added one after the other.  An edge whose source and
    label occurred before replaces the earlier one, and the node that one led to is
    deleted.  All of this can be told from the numbers in the message. *)
From Verif Require Import Base ModelDawg ModelSerial SpecSerial.

Definition member (i : N) (l : list N) : bool := existsb (N.eqb i) l.

(** The edge of the list [es] that leaves [i] with label [c]. *)
Definition leaving (i : N) (c : char) (es : list edge_msg) : option edge_msg :=
  find (fun e => (em_source e =? i)%N && ceqb (label_of_msg (em_label e)) c) es.

(** [replay nodes dead es todo]: the nodes in [dead] have been deleted, the edges
    [es] are there, and [todo] are still to be added.  [None]: a node is used that
    does not exist or has been deleted. *)
Fixpoint replay (nodes dead : list N) (es todo : list edge_msg) : option (list N * list edge_msg) :=
  match todo with
  | [] => Some (dead, es)
  | e :: todo' =>
      if negb (member (em_source e) nodes) || member (em_source e) dead then None
      else
        match leaving (em_source e) (label_of_msg (em_label e)) es with
        | None => replay nodes dead (e :: es) todo'
        | Some old =>
            if negb (member (em_target old) nodes) then replay nodes dead (e :: es) todo'
            else if member (em_target old) dead || (em_target old =? em_source e)%N then None
            else replay nodes (em_target old :: dead) (e :: es) todo'
        end
  end.

(** Where a term leads. *)
Inductive place := There (i : N) | Nowhere | Dangling.

Fixpoint follow (nodes dead : list N) (es : list edge_msg) (i : N) (w : str) : place :=
  if negb (member i nodes) then Nowhere
  else if member i dead then Dangling
  else
    match w with
    | [] => There i
    | c :: w' =>
        match leaving i c es with
        | None => Nowhere
        | Some e => follow nodes dead es (em_target e) w'
        end
    end.

(** [walks nodes dead es i w j]: reading [w] leads from the node [i] to [j], and all
    nodes before [j] exist. *)
Inductive walks (nodes dead : list N) (es : list edge_msg) : N -> str -> N -> Prop :=
| walks_nil : forall i, walks nodes dead es i [] i
| walks_cons : forall i c e w j, In i nodes -> ~ In i dead -> leaving i c es = Some e ->
    walks nodes dead es (em_target e) w j -> walks nodes dead es i (c :: w) j.

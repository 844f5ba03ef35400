(** * SpecSerial: vocabulary for statements about serialized dictionaries. *)
From Verif Require Import Base ModelDawg ModelSerial.

(** A message that makes sense: edges and root refer to listed nodes, and no two
    edges leave one node with the same label. *)
Record well_formed (m : message) : Prop := {
  wf_source : forall e, In e (m_edges m) -> In (em_source e) (m_nodes m);
  wf_target : forall e, In e (m_edges m) -> In (em_target e) (m_nodes m);
  wf_keys : NoDup (map (fun e => (em_source e, label_of_msg (em_label e))) (m_edges m));
  wf_root : In (m_root m) (m_nodes m);
}.

(** The default message, which is what an empty file parses as. *)
Definition empty_message : message := Message [] [] [] 0 0.

(** [leads es i w j]: reading the labels [w] along the edges [es] of a message
    leads from node id [i] to node id [j]. *)
Inductive leads (es : list edge_msg) : N -> str -> N -> Prop :=
| leads_nil : forall i, leads es i [] i
| leads_cons : forall e w j, In e es -> leads es (em_target e) w j ->
    leads es (em_source e) (label_of_msg (em_label e) :: w) j.

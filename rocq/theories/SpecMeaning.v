(** * SpecMeaning: what messages say, and when two say the same. *)
From Coq Require Import Sorting.Permutation.
From Verif Require Import Base ModelSerial SpecSerial.

(** The string is one of the terms of the message. *)
Definition spells (m : message) (w : str) : Prop :=
  exists j, leads (m_edges m) (m_root m) w j /\ In j (m_finals m).

(** The string leads from the root to some node of the message. *)
Definition goes_on (m : message) (w : str) : Prop :=
  exists j, leads (m_edges m) (m_root m) w j.

(** One can go round. *)
Definition goes_round (m : message) : Prop :=
  exists v j c w, leads (m_edges m) (m_root m) v j /\ leads (m_edges m) j (c :: w) j.

(** The same number of terms, the same terms, and the same strings go on. *)
Definition means_same (m m' : message) : Prop :=
  m_size m = m_size m' /\ forall w, (spells m w <-> spells m' w) /\ (goes_on m w <-> goes_on m' w).

(** [e'] is the edge [e] with the nodes renamed by [g]; of the label, only the
    lowest byte counts. *)
Definition same_edge (g : N -> N) (e e' : edge_msg) : Prop :=
  em_source e' = g (em_source e) /\ (em_label e' mod 256 = em_label e mod 256)%N /\ em_target e' = g (em_target e).

(** [m'] lists the same nodes and edges as [m] under other numbers, in any order and
    any number of times. *)
Record renames (g : N -> N) (m m' : message) : Prop := {
  rn_size : m_size m' = m_size m;
  rn_root : m_root m' = g (m_root m);
  rn_inj : forall i j, In i (m_nodes m) -> In j (m_nodes m) -> g i = g j -> i = j;
  rn_finals : forall i, In i (m_nodes m) -> (In (g i) (m_finals m') <-> In i (m_finals m));
  rn_there : forall e, In e (m_edges m) -> exists e', In e' (m_edges m') /\ same_edge g e e';
  rn_back : forall e', In e' (m_edges m') -> exists e, In e (m_edges m) /\ same_edge g e e';
}.

(** How the message [m] comes out where char is unsigned: labels are not extended by
    their sign, and the edges are in another order; nodes have other addresses. *)
Definition unsigned_edge (g : N -> N) (e : edge_msg) : edge_msg :=
  EdgeMsg (g (em_source e)) (uchar (label_of_msg (em_label e))) (g (em_target e)).

Record from_elsewhere (g : N -> N) (m m' : message) : Prop := {
  fe_nodes : Permutation (m_nodes m') (map g (m_nodes m));
  fe_finals : Permutation (m_finals m') (map g (m_finals m));
  fe_edges : Permutation (m_edges m') (map (unsigned_edge g) (m_edges m));
  fe_root : m_root m' = g (m_root m);
  fe_size : m_size m' = m_size m;
  fe_inj : forall i j, In i (m_nodes m) -> In j (m_nodes m) -> g i = g j -> i = j;
}.

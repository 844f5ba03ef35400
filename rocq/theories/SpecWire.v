(** * SpecWire: vocabulary for statements about messages as bytes. *)
From Verif Require Import Base ModelDawg ModelSerial SpecSerial ModelWire SpecDawg.
Local Open Scope N_scope.

(** The numbers fit the types of the fields: uint64, and uint32 for labels
    (proto/liblevenshtein.proto:9-18). *)
Record in_range (m : message) : Prop := {
  ir_nodes : forall i, In i (m_nodes m) -> i < 2 ^ 64;
  ir_finals : forall i, In i (m_finals m) -> i < 2 ^ 64;
  ir_edges : forall e, In e (m_edges m) -> em_source e < 2 ^ 64 /\ em_label e < 2 ^ 32 /\ em_target e < 2 ^ 64;
  ir_root : m_root m < 2 ^ 64;
  ir_size : m_size m < 2 ^ 64;
}.

(** The message fits protobuf's limit of INT_MAX bytes. *)
Definition not_too_long (m : message) : Prop := N.of_nat (length (encode m)) <= INT_MAX.

(** Addresses are 64 bits wide. *)
Definition addresses_fit (h : heap) : Prop := forall p, allocated h p -> p < 2 ^ 64.

(** [front] is a proper prefix of [bs]. *)
Definition cut_short (front bs : list byte) : Prop := exists back, back <> [] /\ bs = front ++ back.

(** Pieces that add up to the whole. *)
Definition splitter (split : list byte -> list (list byte)) : Prop := forall bs, concat (split bs) = bs.

(** The file after [k] pieces were handed to the stream; at the beginning it is
    open and empty. *)
Definition after_pieces (size room : N) (pieces : list (list byte)) (k : nat) : ofile :=
  fold_left (write size) (firstn k pieces) (OFile true [] [] room).

(** What the file may contain if the process dies while it writes [pieces] or
    closes the stream: some of the bytes of the operation under way may have
    reached the disk. *)
Definition found_after_crash (size room : N) (pieces : list (list byte)) (contents : list byte) : Prop :=
  exists k now next some rest,
    now = after_pieces size room pieces k /\
    (next = after_pieces size room pieces (S k) \/ next = flush now []) /\
    contents = written now ++ some /\ written next = contents ++ rest.

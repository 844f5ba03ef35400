(** * SpecFormat: the format of dictionary files, after the documentation of
    protobuf's encoding and proto/liblevenshtein.proto.  No function of the model
    is used, only the types of messages. *)
From Verif Require Import Base ModelSerial.
Local Open Scope N_scope.

Definition are_bytes (bs : list N) : Prop := Forall (fun b => b < 256) bs.

(** Base 128, least significant digit first; all bytes but the last have the top
    bit set.  Digits that are 0 may follow. *)
Inductive base128 : list N -> N -> Prop :=
| base128_last : forall b, b < 128 -> base128 [b] b
| base128_more : forall b bs n, 128 <= b < 256 -> base128 bs n -> base128 (b :: bs) (b - 128 + 128 * n).

(** Numbers have at most ten bytes; bits beyond those of the type are ignored. *)
Definition number (bits : N) (bs : list N) (n : N) : Prop :=
  exists v, base128 bs v /\ (length bs <= 10)%nat /\ n = v mod 2 ^ bits.

(** A sequence of numbers. *)
Inductive numbers (bits : N) : list N -> list N -> Prop :=
| numbers_nil : numbers bits [] []
| numbers_cons : forall bs n bs' ns, number bits bs n -> numbers bits bs' ns -> numbers bits (bs ++ bs') (n :: ns).

(** What is in front of a field: its number, which is not 0, and its wire type. *)
Definition key (field wire_type : N) (bs : list N) : Prop :=
  exists v, base128 bs v /\ (length bs <= 5)%nat /\ v mod 2 ^ 32 = 8 * field + wire_type /\ wire_type < 8 /\ field <> 0.

(** Bytes with their number in front. *)
Definition delimited (bs body : list N) : Prop :=
  exists len, base128 len (N.of_nat (length body)) /\ (length len <= 5)%nat /\ bs = len ++ body.

(** The value of a field of some number and wire type, whether the schema has it or
    not: a number, eight bytes, some bytes with their number in front, four bytes, or
    a group, which is a sequence of such fields and the key of the group again, with
    wire type 4.  Groups are nested at most [depth] deep. *)
Inductive any_value : nat -> N -> N -> list N -> Prop :=
| any_number : forall depth k bs n, number 64 bs n -> any_value depth k 0 bs
| any_eight : forall depth k bs, length bs = 8%nat -> any_value depth k 1 bs
| any_delimited : forall depth k bs body, delimited bs body -> any_value depth k 2 bs
| any_group : forall depth k body end_key, any_fields depth body -> key k 4 end_key ->
    any_value (S depth) k 3 (body ++ end_key)
| any_four : forall depth k bs, length bs = 4%nat -> any_value depth k 5 bs
with any_fields : nat -> list N -> Prop :=
| any_nil : forall depth, any_fields depth []
| any_cons : forall depth k t kb bs rest, key k t kb -> any_value depth k t bs -> any_fields depth rest ->
    any_fields depth (kb ++ bs ++ rest).

(** A sequence of fields, each of which changes what is known of a message;
    [value k t bs x y] means that field [k] of wire type [t] with value [bs]
    changes [x] to [y]. *)
Inductive fields_of {A : Type} (value : N -> N -> list N -> A -> A -> Prop) : list N -> A -> A -> Prop :=
| fields_nil : forall x, fields_of value [] x x
| fields_cons : forall k t kb bs rest x y z, key k t kb -> value k t bs x y -> fields_of value rest y z ->
    fields_of value (kb ++ bs ++ rest) x z.

(** message Edge (proto/liblevenshtein.proto:9-13): if a field is repeated, the
    last one counts; fields this version of the schema does not have are ignored. *)
Inductive edge_value : N -> N -> list N -> edge_msg -> edge_msg -> Prop :=
| edge_source : forall bs n e, number 64 bs n -> edge_value 1 0 bs e (EdgeMsg n (em_label e) (em_target e))
| edge_label : forall bs n e, number 32 bs n -> edge_value 2 0 bs e (EdgeMsg (em_source e) n (em_target e))
| edge_target : forall bs n e, number 64 bs n -> edge_value 3 0 bs e (EdgeMsg (em_source e) (em_label e) n)
| edge_other : forall k t bs e, any_value 99 k t bs -> ~ In (k, t) [(1, 0); (2, 0); (3, 0)] -> edge_value k t bs e e.

(** message Dictionary (proto/liblevenshtein.proto:8-19). *)
Inductive dictionary_value : N -> N -> list N -> message -> message -> Prop :=
| nodes_packed : forall bs body ns m, delimited bs body -> numbers 64 body ns ->
    dictionary_value 1 2 bs m (Message (m_nodes m ++ ns) (m_finals m) (m_edges m) (m_root m) (m_size m))
| nodes_one : forall bs n m, number 64 bs n ->
    dictionary_value 1 0 bs m (Message (m_nodes m ++ [n]) (m_finals m) (m_edges m) (m_root m) (m_size m))
| finals_packed : forall bs body ns m, delimited bs body -> numbers 64 body ns ->
    dictionary_value 2 2 bs m (Message (m_nodes m) (m_finals m ++ ns) (m_edges m) (m_root m) (m_size m))
| finals_one : forall bs n m, number 64 bs n ->
    dictionary_value 2 0 bs m (Message (m_nodes m) (m_finals m ++ [n]) (m_edges m) (m_root m) (m_size m))
| edges_one : forall bs body e m, delimited bs body -> fields_of edge_value body (EdgeMsg 0 0 0) e ->
    dictionary_value 3 2 bs m (Message (m_nodes m) (m_finals m) (m_edges m ++ [e]) (m_root m) (m_size m))
| root_is : forall bs n m, number 64 bs n ->
    dictionary_value 4 0 bs m (Message (m_nodes m) (m_finals m) (m_edges m) n (m_size m))
| size_is : forall bs n m, number 64 bs n ->
    dictionary_value 5 0 bs m (Message (m_nodes m) (m_finals m) (m_edges m) (m_root m) n)
| field_other : forall k t bs m, any_value 100 k t bs ->
    ~ In (k, t) [(1, 2); (1, 0); (2, 2); (2, 0); (3, 2); (4, 0); (5, 0)] -> dictionary_value k t bs m m.

(** [bs] encodes the message [m]. *)
Definition encodes (bs : list N) (m : message) : Prop :=
  fields_of dictionary_value bs (Message [] [] [] 0 0) m.

(** [bs] is a sequence of fields that this version of the schema does not have. *)
Definition unknown_fields (bs : list N) : Prop :=
  fields_of (fun k t bs (x y : unit) => any_value 100 k t bs /\
    ~ In (k, t) [(1, 2); (1, 0); (2, 2); (2, 0); (3, 2); (4, 0); (5, 0)]) bs tt tt.

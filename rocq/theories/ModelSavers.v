(** * ModelSavers: several processes or threads that use one file.

    serialize_protobuf(dawg, path) (serializer.cpp:30-41) opens the file with
    [trunc], which empties it, writes the bytes of the message one after the other
    and closes the file; deserialize_protobuf(path) (serializer.cpp:51-66) reads the
    bytes up to the end of the file.  Each of them has a position of its own in the
    file.  Here every byte is written and read by a step of its own, so whatever
    pieces the buffers of the streams and the operating system make is covered.
    Simplification: there is room on the disk, and nobody renames or removes the
    file. *)
From Verif Require Import Base ModelDawg ModelSerial ModelWire.

(** Writing a byte at a position; beyond the end of the file the gap is filled with
    zeros, as POSIX says. *)
Definition put_byte (file : list byte) (offset : nat) (b : byte) : list byte :=
  if Nat.ltb offset (length file) then firstn offset file ++ b :: skipn (S offset) file
  else file ++ repeat 0%N (offset - length file) ++ [b].

(** Who uses the file and how far they are. *)
Inductive process :=
| Save (bytes : list byte)                       (* before opening *)
| Writing (offset : nat) (rest : list byte)      (* before close() *)
| Saved
| Load                                           (* before opening *)
| Reading (offset : nat) (so_far : list byte)
| Loaded (input : option (list byte))            (* what parse_from gets *)
| Killed.

Inductive event := Opens | Writes | Closes | Reads | Dies.

(** What one of them may do next. *)
Inductive act : option (list byte) -> process -> event -> option (list byte) -> process -> Prop :=
| act_truncate : forall file bs, act file (Save bs) Opens (Some []) (Writing 0 bs)
| act_write : forall f o b rest, act (Some f) (Writing o (b :: rest)) Writes (Some (put_byte f o b)) (Writing (S o) rest)
| act_close : forall f o, act f (Writing o []) Closes f Saved
| act_open : forall f, act (Some f) Load Reads (Some f) (Reading 0 [])
| act_missing : act None Load Reads None (Loaded None)
| act_read : forall f o b so_far, nth_error f o = Some b -> act (Some f) (Reading o so_far) Reads (Some f) (Reading (S o) (so_far ++ [b]))
| act_end : forall f o so_far, length f <= o -> act (Some f) (Reading o so_far) Reads (Some f) (Loaded (Some so_far))
| act_die_writing : forall f o rest, act f (Writing o rest) Dies f Killed
| act_die_reading : forall f o so_far, act f (Reading o so_far) Dies f Killed.

(** Any number of steps; the events in the order in which they happen, each with the
    number of who it was. *)
Inductive happens : option (list byte) * list process -> list (nat * event) -> option (list byte) * list process -> Prop :=
| happens_nothing : forall s, happens s [] s
| happens_next : forall s events f before p after e f' p',
    happens s events (f, before ++ p :: after) -> act f p e f' p' ->
    happens s (events ++ [(length before, e)]) (f', before ++ p' :: after).

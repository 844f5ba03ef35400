(** * ModelWire: dictionaries as bytes, streams and files.

    serialization/serializer.cpp:22-66 hands messages to protobuf and protobuf
    hands bytes to iostreams.  Neither library is part of /repo; what follows is
    a model of the part of their documented behaviour the serializer relies on:
    protobuf's wire format for the message type of
    proto/liblevenshtein.proto:8-19, and a file stream with a buffer on a disk
    that may fill up.  Fields of unknown number are skipped as protobuf does,
    groups (wire types 3 and 4) among them; the old spelling of repeated
    numbers, one field per number, is accepted. *)
From Verif Require Import Base ModelDawg ModelSerial.
Local Open Scope N_scope.

Notation byte := N.

(** ** Variable-length numbers: seven bits per byte, least significant first;
    the top bit says that more bytes follow. *)
Fixpoint put_varint (width : nat) (n : N) : list byte :=
  match width with
  | O => []
  | S width' => if n <? 128 then [n] else (n mod 128 + 128) :: put_varint width' (n / 128)
  end.

(** A uint64 takes at most ten bytes. *)
Definition varint (n : N) : list byte := put_varint 10 n.

(** Reading gives up after [width] bytes or at the end of the input. *)
Fixpoint get_varint (width : nat) (bs : list byte) : option (N * list byte) :=
  match width, bs with
  | O, _ | _, [] => None
  | S width', b :: bs' =>
      if b <? 128 then Some (b, bs')
      else match get_varint width' bs' with
           | Some (n, rest) => Some (b mod 128 + 128 * n, rest)
           | None => None
           end
  end.

Definition get_uint64 (bs : list byte) : option (N * list byte) :=
  match get_varint 10 bs with Some (n, rest) => Some (n mod 2 ^ 64, rest) | None => None end.
Definition get_uint32 (bs : list byte) : option (N * list byte) :=
  match get_varint 10 bs with Some (n, rest) => Some (n mod 2 ^ 32, rest) | None => None end.
(** Tags have at most five bytes. *)
Definition get_tag (bs : list byte) : option (N * list byte) :=
  match get_varint 5 bs with Some (n, rest) => Some (n mod 2 ^ 32, rest) | None => None end.

(** A length and that many bytes. *)
Definition get_delimited (bs : list byte) : option (list byte * list byte) :=
  match get_varint 5 bs with
  | Some (n, rest) =>
      if n <=? N.of_nat (length rest)
      then Some (firstn (N.to_nat n) rest, skipn (N.to_nat n) rest) else None
  | None => None
  end.

(** ** Writing: fields in the order of their numbers; fields with the default
    value are left out; repeated numbers are packed into one field. *)
Definition tag (number wire_type : N) : byte := number * 8 + wire_type.

Definition put_uint (number n : N) : list byte :=
  if n =? 0 then [] else tag number 0 :: varint n.

Definition put_delimited (number : N) (body : list byte) : list byte :=
  tag number 2 :: varint (N.of_nat (length body)) ++ body.

Definition put_packed (number : N) (ns : list N) : list byte :=
  match ns with [] => [] | _ => put_delimited number (flat_map varint ns) end.

(** Dictionary.Edge (proto/liblevenshtein.proto:9-13). *)
Definition put_edge (e : edge_msg) : list byte :=
  put_uint 1 (em_source e) ++ put_uint 2 (em_label e) ++ put_uint 3 (em_target e).

(** Dictionary (proto/liblevenshtein.proto:8-19). *)
Definition encode (m : message) : list byte :=
  put_packed 1 (m_nodes m) ++ put_packed 2 (m_finals m) ++
  flat_map (fun e => put_delimited 3 (put_edge e)) (m_edges m) ++
  put_uint 4 (m_root m) ++ put_uint 5 (m_size m).

(** ** Reading. *)

(** Messages and groups may be nested a hundred deep (kDefaultRecursionLimit in
    protobuf); a message's fields may hold one level less than the message. *)
Definition depth_limit : nat := 100.

(** Skips the value of a field that is not known and not a group. *)
Definition skip_scalar (wire_type : N) (bs : list byte) : option (list byte) :=
  match wire_type with
  | 0 => match get_uint64 bs with Some (_, rest) => Some rest | None => None end
  | 1 => if 8 <=? N.of_nat (length bs) then Some (skipn 8 bs) else None
  | 2 => match get_delimited bs with Some (_, rest) => Some rest | None => None end
  | 5 => if 4 <=? N.of_nat (length bs) then Some (skipn 4 bs) else None
  | _ => None
  end.

(** Skips what is left of the groups with the numbers [open], the innermost
    first; [limit] more may be opened.  A group ends with a tag of wire type 4
    and its own number.  [OOF] does not happen with more fuel than bytes. *)
Fixpoint skip_groups (fuel limit : nat) (open : list N) (bs : list byte) : res (option (list byte)) :=
  match open with
  | [] => Ok (Some bs)
  | inner :: outer =>
      match fuel with
      | O => OOF
      | S fuel' =>
          match get_tag bs with
          | None => Ok None
          | Some (t, rest) =>
              if t / 8 =? 0 then Ok None
              else if t mod 8 =? 4 then
                if t / 8 =? inner then skip_groups fuel' (S limit) outer rest else Ok None
              else if t mod 8 =? 3 then
                match limit with
                | O => Ok None
                | S limit' => skip_groups fuel' limit' (t / 8 :: open) rest
                end
              else match skip_scalar (t mod 8) rest with
                   | Some rest' => skip_groups fuel' limit open rest'
                   | None => Ok None
                   end
          end
      end
  end.

(** Skips the value of a field that is not known. *)
Definition skip_value (limit : nat) (number wire_type : N) (bs : list byte) : res (option (list byte)) :=
  if wire_type =? 3 then
    match limit with
    | O => Ok None
    | S limit' => skip_groups (S (length bs)) limit' [number] bs
    end
  else Ok (skip_scalar wire_type bs).

(** All the numbers of a packed field.  [OOF] does not happen with more fuel than
    bytes. *)
Fixpoint get_packed (fuel : nat) (bs : list byte) : res (option (list N)) :=
  match fuel with
  | O => OOF
  | S fuel' =>
      match bs with
      | [] => Ok (Some [])
      | _ =>
          match get_uint64 bs with
          | None => Ok None
          | Some (n, rest) =>
              do ns <- get_packed fuel' rest;
              Ok (match ns with Some ns => Some (n :: ns) | None => None end)
          end
      end
  end.

(** A loop over the fields of a message.  [step] stores the field with the given
    number and wire type; its result [None] means malformed input. *)
Fixpoint fields {A} (step : A -> N -> N -> list byte -> res (option (A * list byte)))
  (fuel : nat) (acc : A) (bs : list byte) : res (option A) :=
  match fuel with
  | O => OOF
  | S fuel' =>
      match bs with
      | [] => Ok (Some acc)
      | _ =>
          match get_tag bs with
          | None => Ok None
          | Some (t, rest) =>
              if t / 8 =? 0 then Ok None
              else
                do r <- step acc (t / 8) (t mod 8) rest;
                match r with
                | None => Ok None
                | Some (acc', rest') => fields step fuel' acc' rest'
                end
          end
      end
  end.

Definition skip {A} (limit : nat) (acc : A) (number wire_type : N) (bs : list byte) : res (option (A * list byte)) :=
  do rest <- skip_value limit number wire_type bs;
  Ok (match rest with Some rest => Some (acc, rest) | None => None end).

Definition edge_field (e : edge_msg) (number wire_type : N) (bs : list byte)
  : res (option (edge_msg * list byte)) :=
  match number, wire_type with
  | 1, 0 => Ok (match get_uint64 bs with
                | Some (n, rest) => Some (EdgeMsg n (em_label e) (em_target e), rest) | None => None end)
  | 2, 0 => Ok (match get_uint32 bs with
                | Some (n, rest) => Some (EdgeMsg (em_source e) n (em_target e), rest) | None => None end)
  | 3, 0 => Ok (match get_uint64 bs with
                | Some (n, rest) => Some (EdgeMsg (em_source e) (em_label e) n, rest) | None => None end)
  | _, _ => skip (pred depth_limit) e number wire_type bs
  end.

Definition decode_edge (bs : list byte) : res (option edge_msg) :=
  fields edge_field (S (length bs)) (EdgeMsg 0 0 0) bs.

Definition packed_field (bs : list byte) : res (option (list N * list byte)) :=
  match get_delimited bs with
  | None => Ok None
  | Some (body, rest) =>
      do ns <- get_packed (S (length body)) body;
      Ok (match ns with Some ns => Some (ns, rest) | None => None end)
  end.

Definition message_field (m : message) (number wire_type : N) (bs : list byte)
  : res (option (message * list byte)) :=
  match number, wire_type with
  | 1, 2 =>
      do r <- packed_field bs;
      Ok (match r with
          | Some (ns, rest) => Some (Message (m_nodes m ++ ns) (m_finals m) (m_edges m) (m_root m) (m_size m), rest)
          | None => None end)
  | 1, 0 => Ok (match get_uint64 bs with
                | Some (n, rest) => Some (Message (m_nodes m ++ [n]) (m_finals m) (m_edges m) (m_root m) (m_size m), rest)
                | None => None end)
  | 2, 2 =>
      do r <- packed_field bs;
      Ok (match r with
          | Some (ns, rest) => Some (Message (m_nodes m) (m_finals m ++ ns) (m_edges m) (m_root m) (m_size m), rest)
          | None => None end)
  | 2, 0 => Ok (match get_uint64 bs with
                | Some (n, rest) => Some (Message (m_nodes m) (m_finals m ++ [n]) (m_edges m) (m_root m) (m_size m), rest)
                | None => None end)
  | 3, 2 =>
      match get_delimited bs with
      | None => Ok None
      | Some (body, rest) =>
          do e <- decode_edge body;
          Ok (match e with
              | Some e => Some (Message (m_nodes m) (m_finals m) (m_edges m ++ [e]) (m_root m) (m_size m), rest)
              | None => None end)
      end
  | 4, 0 => Ok (match get_uint64 bs with
                | Some (n, rest) => Some (Message (m_nodes m) (m_finals m) (m_edges m) n (m_size m), rest)
                | None => None end)
  | 5, 0 => Ok (match get_uint64 bs with
                | Some (n, rest) => Some (Message (m_nodes m) (m_finals m) (m_edges m) (m_root m) n, rest)
                | None => None end)
  | _, _ => skip depth_limit m number wire_type bs
  end.

(** Messages are limited to INT_MAX bytes. *)
Definition decode (bs : list byte) : res (option message) :=
  if N.of_nat (length bs) <=? INT_MAX
  then fields message_field (S (length bs)) (Message [] [] [] 0 0) bs
  else Ok None.

(** ** Files.  A disk with [space] more bytes; [size] is the capacity of a
    stream's buffer. *)
Record ofile := OFile {
  good : bool;              (* the state of the stream *)
  pending : list byte;      (* in the buffer *)
  written : list byte;      (* in the file *)
  space : N
}.

(** Writes the buffer and [bs] through; what does not fit is lost. *)
Definition flush (f : ofile) (bs : list byte) : ofile :=
  let all := pending f ++ bs in
  let fitting := firstn (N.to_nat (space f)) all in
  OFile (good f && (N.of_nat (length all) <=? space f)) [] (written f ++ fitting)
    (space f - N.of_nat (length fitting)).

(** ostream::write on a file stream: nothing after a failure; into the buffer if
    there is room. *)
Definition write (size : N) (f : ofile) (bs : list byte) : ofile :=
  if negb (good f) then f
  else if N.of_nat (length (pending f) + length bs) <=? size
  then OFile true (pending f ++ bs) (written f) (space f)
  else flush f bs.

(** SerializeToOstream: nothing is written if the message is longer than INT_MAX;
    otherwise the encoding, in pieces that [split] chooses; the result is the
    state of the stream. *)
Definition serialize_to (size : N) (split : list byte -> list (list byte)) (f : ofile) (m : message) : bool * ofile :=
  let bs := encode m in
  if N.of_nat (length bs) <=? INT_MAX then
    let f1 := fold_left (write size) (split bs) f in (good f1, f1)
  else (false, f).

(** serialize_protobuf into a stream (serializer.cpp:36-41). *)
Definition serialize_stream (fuel : nat) (size : N) split (f : ofile) (h : heap) (d : dawg) : res (bool * ofile) :=
  do m <- to_protobuf fuel h d;
  Ok (serialize_to size split f m).

(** serialize_protobuf into the file at a path (serializer.cpp:30-35): the file is
    truncated or created; close() writes the buffer, and nobody looks at whether
    that worked.  [opens] says whether the file can be opened for writing.  The
    overloads for paths and strings (22-28) only convert the path. *)
Definition serialize_file (fuel : nat) (size : N) split (opens : bool) (room : N) (old : option (list byte))
  (h : heap) (d : dawg) : res (bool * option (list byte)) :=
  if opens then
    do (ok, f) <- serialize_stream fuel size split (OFile true [] [] room) h d;
    Ok (ok, Some (written (flush f [])))
  else
    do (ok, _) <- serialize_stream fuel size split (OFile false [] [] room) h d;
    Ok (ok, old).

(** ParseFromIstream: false if the stream could not be read to its end, which is
    how a file that could not be opened shows. *)
Definition parse_from (input : option (list byte)) : res (option message) :=
  match input with None => Ok None | Some bs => decode bs end.

(** deserialize_protobuf (serializer.cpp:43-66). *)
Definition deserialize_file (alloc : heap -> ptr) (h : heap) (input : option (list byte))
  : res (heap * option builder) :=
  do m <- parse_from input;
  deserialize alloc h m.

(** * SpecStream: several dictionaries in one stream. *)
From Verif Require Import Base ModelDawg ModelSerial ModelWire SpecDawg.

(** serialize_protobuf is called for each of [ds] with the same stream; the results
    of the calls. *)
Fixpoint save_all (fuel : nat) (size : N) (split : list byte -> list (list byte)) (f : ofile) (h : heap) (ds : list dawg)
  : res (list bool * ofile) :=
  match ds with
  | [] => Ok ([], f)
  | d :: ds' =>
      do (ok, f1) <- serialize_stream fuel size split f h d;
      do (oks, f2) <- save_all fuel size split f1 h ds';
      Ok (ok :: oks, f2)
  end.

(** An empty file on a disk with [room] bytes, opened for writing; what is in the
    file when the stream has been closed. *)
Definition opened (room : N) : ofile := OFile true [] [] room.
Definition contents (f : ofile) : list byte := ModelWire.written (flush f []).

(** No node belongs to both. *)
Definition apart (h : heap) (d d' : dawg) : Prop := forall p, ~ (reach h (d_root d) p /\ reach h (d_root d') p).

(** The last number that is not 0. *)
Definition last_nonzero (ns : list N) : N := fold_left (fun last n => if (n =? 0)%N then last else n) ns 0%N.

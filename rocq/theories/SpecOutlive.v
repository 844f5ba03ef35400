(** * SpecOutlive: iterators and the life of the dictionary they walk over. *)
From Verif Require Import Base ModelDawg SpecDawg.

(** An iterator over the terms of a dictionary, begin() and [k] increments later. *)
Fixpoint steps_on (fuel : nat) (h : heap) (k : nat) (it : iter) : res iter :=
  match k with
  | O => Ok it
  | S k' => do it' <- iter_next fuel h it; steps_on fuel h k' it'
  end.
Definition iter_after (fuel : nat) (h : heap) (d : dawg) (k : nat) : res iter :=
  do it <- dawg_begin fuel h d; steps_on fuel h k it.

(** [deleted h b h2]: memory was [h], [delete b] was executed, and now memory is
    [h2].  Other objects may have come and gone since, but none of them where a
    node of the dictionary was (a dangling pointer is then as undefined as before,
    but the model would not notice). *)
Definition deleted (h : heap) (b : builder) (h2 : heap) : Prop :=
  exists h1, runs_to (fun fuel => destroy fuel h b) h1 /\
    forall p, reach h (d_root (b_dawg b)) p -> hget h2 p = hget h1 p.

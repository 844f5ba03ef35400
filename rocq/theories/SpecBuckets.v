(** * SpecBuckets: what a hash table asks of its keys. *)
From Verif Require Import Base ModelHash ModelDawg ModelBuckets SpecDawg.

(** A new SortedDawg, initialized, and some add calls, accepted or not. *)
Definition h_construction (cached : bool) (grow : table -> option nat) (fuel : nat) (alloc : heap -> ptr) (h : heap)
  (ts : list str) : res (list bool * heap * hbuilder) :=
  let (h1, b1) := h_new alloc h in
  h_adds cached grow fuel alloc h1 b1 ts.

(** The hash code of every key is now what it was when the key was inserted, and
    the key is in the bucket of that code; no two keys are equal now; the key is
    still a copy of the node that is stored under it. *)
Record well_kept (h : heap) (t : table) : Prop := {
  wk_code : forall e, In e (concat t) -> runs_to (fun fuel => node_hash fuel h (e_key e)) (e_hash e);
  wk_place : forall i b e, nth_error t i = Some b -> In e b -> slot_of t (e_hash e) = i;
  wk_apart : forall i j e1 e2, i <> j -> nth_error (concat t) i = Some e1 -> nth_error (concat t) j = Some e2 ->
    runs_to (fun fuel => node_eq fuel h (e_key e1) (e_key e2)) false;
  wk_copy : forall e, In e (concat t) -> hget h (e_ptr e) = Some (e_key e) }.

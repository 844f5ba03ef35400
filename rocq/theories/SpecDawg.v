(** * SpecDawg: vocabulary for statements about dictionaries in memory.

    Paths along labelled edges, the suffixes a node accepts, reachability, and
    termination of a fuelled computation of the model.  Apart from these, the
    theorems about dictionaries speak of lists of terms and of the results of
    the public operations. *)
From Coq Require Export Sorting.Sorted Sorting.Permutation.
From Verif Require Import Base Spec ModelDawg.

(** [path h p w q]: reading the labels [w] leads from node [p] to node [q]. *)
Inductive path (h : heap) : ptr -> str -> ptr -> Prop :=
| path_nil : forall p, path h p [] p
| path_cons : forall p n c q w r,
    hget h p = Some n -> In (c, q) (nedges n) -> path h q w r -> path h p (c :: w) r.

Definition reach (h : heap) (p q : ptr) : Prop := exists w, path h p w q.

(** [w] leads from [p] to a final node. *)
Definition accepts_from (h : heap) (p : ptr) (w : str) : Prop :=
  exists q n, path h p w q /\ hget h q = Some n /\ nfin n = true.

(** [allocated h p]: there is a node at address [p]. *)
Definition allocated (h : heap) (p : ptr) : Prop := hget h p <> None.

(** The same nodes with the same contents are allocated. *)
Definition same_heap (h1 h2 : heap) : Prop := forall p, hget h1 p = hget h2 p.

(** [runs_to f a]: the computation terminates without undefined behaviour with
    result [a]: there is an amount of fuel from which on the outcome is [Ok a]. *)
Definition runs_to {A : Type} (f : nat -> res A) (a : A) : Prop :=
  exists enough, forall fuel, enough <= fuel -> f fuel = Ok a.

(** The computation runs into undefined behaviour. *)
Definition runs_into_ub {A : Type} (f : nat -> res A) : Prop :=
  exists enough, forall fuel, enough <= fuel -> f fuel = UB.

(** ** Client programs *)

(** [for (t : ts) results.push_back(dawg.add(t));], going on after rejections. *)
Fixpoint adds (fuel : nat) (alloc : heap -> ptr) (h : heap) (b : builder) (ts : list str)
  : res (list bool * heap * builder) :=
  match ts with
  | [] => Ok ([], h, b)
  | t :: ts' =>
      do (r, h1, b1) <- add fuel alloc h b t;
      do (rs, h2, b2) <- adds fuel alloc h1 b1 ts';
      Ok (r :: rs, h2, b2)
  end.

(** A new SortedDawg, initialized, and some add calls. *)
Definition under_construction (fuel : nat) (alloc : heap -> ptr) (h : heap) (ts : list str)
  : res (list bool * heap * builder) :=
  let (h1, b1) := new_sorted_dawg alloc h in
  adds fuel alloc h1 (init b1) ts.

(** The same followed by finish(). *)
Definition finished (fuel : nat) (alloc : heap -> ptr) (h : heap) (ts : list str)
  : res (list bool * heap * builder) :=
  do (rs, h1, b1) <- under_construction fuel alloc h ts;
  do (h2, b2) <- finish fuel h1 b1;
  Ok (rs, h2, b2).

(** A whole life: construction, optionally finish() and clean_up(), then
    [delete]. *)
Definition lifetime (fuel : nat) (alloc : heap -> ptr) (h : heap) (ts : list str)
  (do_finish do_clean_up : bool) : res heap :=
  do (_, h1, b1) <- under_construction fuel alloc h ts;
  do (h2, b2) <- (if do_finish then finish fuel h1 b1 else Ok (h1, b1));
  do (h3, b3) <- (if do_clean_up then clean_up fuel h2 b2 else Ok (h2, b2));
  destroy fuel h3 b3.

(** [greedy prev ts flags kept]: going through [ts] and keeping every term that
    is not smaller than the last one kept ([prev] at the beginning); [flags]
    tells which ones are kept. *)
Inductive greedy : str -> list str -> list bool -> list str -> Prop :=
| greedy_nil : forall prev, greedy prev [] [] []
| greedy_keep : forall prev t ts flags kept, ~ lex_lt t prev -> greedy t ts flags kept ->
    greedy prev (t :: ts) (true :: flags) (t :: kept)
| greedy_drop : forall prev t ts flags kept, lex_lt t prev -> greedy prev ts flags kept ->
    greedy prev (t :: ts) (false :: flags) kept.

(** What std::map guarantees: the edges of every node are in strictly ascending
    order of their labels. *)
Definition edges_in_order (n : node) : Prop :=
  StronglySorted (fun e f => (schar (fst e) < schar (fst f))%Z) (nedges n).
Definition maps_in_order (h : heap) : Prop := forall p n, hget h p = Some n -> edges_in_order n.

(** A particular allocator, for examples: one more than the largest address that
    was ever used. *)
Definition bump (h : heap) : ptr := (1 + fold_right N.max 0%N (map fst h))%N.

(** Another one, which hands out freed addresses again, the last one first. *)
Definition lifo (h : heap) : ptr :=
  match find (fun p => negb (N.eqb p null) &&
                       match hget h p with Some _ => false | None => true end) (map fst h) with
  | Some p => p
  | None => bump h
  end.

(** The nodes that are allocated, for examples. *)
Definition live (h : heap) : list (ptr * node) :=
  flat_map (fun p => match hget h p with Some n => [(p, n)] | None => [] end)
           (nodup N.eq_dec (map fst h)).

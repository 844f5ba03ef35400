(** * SpecBuildThrow: programs that build dictionaries and catch std::bad_alloc. *)
From Verif Require Import Base Spec ModelDawg SpecDawg ModelThrow ModelBuildThrow.

(** [u] is the beginning of [v]. *)
Definition begins (u v : str) : Prop := exists rest, v = u ++ rest.

(** [for (t : terms) dawg.add(t);] with a budget for each call, up to the first
    exception: what the calls returned, and the term whose call threw. *)
Fixpoint add_until (fuel : nat) (alloc : heap -> ptr) (h : heap) (bd : builder) (ts : list (str * budget))
  : res (heap * builder * list bool * option str) :=
  match ts with
  | [] => Ok (h, bd, [], None)
  | (t, b) :: ts' =>
      do (_, h1, bd1, r) <- try_add fuel alloc b h bd t;
      match r with
      | None => Ok (h1, bd1, [], Some t)
      | Some accepted =>
          do (h2, bd2, rs, failed) <- add_until fuel alloc h1 bd1 ts';
          Ok (h2, bd2, accepted :: rs, failed)
      end
  end.

(** Calls of finish(), also after one has thrown: which ones did not throw. *)
Fixpoint finishes (fuel : nat) (h : heap) (bd : builder) (bs : list budget)
  : res (heap * builder * list bool) :=
  match bs with
  | [] => Ok (h, bd, [])
  | b :: bs' =>
      do (_, h1, bd1, done) <- try_finish fuel b h bd;
      do (h2, bd2, rs) <- finishes fuel h1 bd1 bs';
      Ok (h2, bd2, done :: rs)
  end.

(** The same nodes with the same contents, and possibly one node more. *)
Definition one_more_at_most (h base : heap) : Prop :=
  same_heap h base \/
  exists p n, hget base p = None /\ hget h p = Some n /\ forall q, q <> p -> hget h q = hget base q.

(** Everything that was there is still there. *)
Definition keeps_nodes (base h : heap) : Prop := forall p n, hget base p = Some n -> hget h p = Some n.

(** * SpecSnapshot: looking at a dictionary while it is being built. *)
From Verif Require Import Base Spec ModelTransducer ModelDawg ModelQuery SpecDawg.

(** The accepted terms that can be found before finish() (C22): those that do not
    begin like the one accepted last. *)
Definition findable (kept : list str) (w : str) : Prop :=
  In w kept /\ match w, last kept [] with c :: _, d :: _ => c <> d | _, _ => True end.

(** What the owner of the dictionary and the owner of an iterator over it do, one
    after the other: a call of add, finish() or clean_up(), or an increment of the
    iterator. *)
Inductive event := Adding (t : str) | Finishing | CleaningUp | Incrementing.

Definition is_increment (e : event) : bool :=
  match e with Incrementing => true | _ => false end.

Definition increments_in (es : list event) : nat := length (filter is_increment es).
Definition changes_in (es : list event) : list event := filter (fun e => negb (is_increment e)) es.

Definition terms_in (es : list event) : list str :=
  flat_map (fun e => match e with Adding t => [t] | _ => [] end) es.

(** Terms are added first, then perhaps finish() is called, then perhaps
    clean_up(). *)
Definition in_order (es : list event) : Prop :=
  exists ts fin cl, changes_in es =
    map Adding ts ++ (if fin : bool then [Finishing] else []) ++ (if cl : bool then [CleaningUp] else []).

Section Play.
  (** What an increment does to the iterator [s]. *)
  Context {S : Type} (increment : nat -> heap -> S -> res S).

  Fixpoint play (fuel : nat) (alloc : heap -> ptr) (h : heap) (b : builder) (s : S) (es : list event)
    : res (heap * builder * S) :=
    match es with
    | [] => Ok (h, b, s)
    | Adding t :: es' => do (_, h1, b1) <- add fuel alloc h b t; play fuel alloc h1 b1 s es'
    | Finishing :: es' => do (h1, b1) <- finish fuel h b; play fuel alloc h1 b1 s es'
    | CleaningUp :: es' => do (h1, b1) <- clean_up fuel h b; play fuel alloc h1 b1 s es'
    | Incrementing :: es' => do s1 <- increment fuel h s; play fuel alloc h b s1 es'
    end.

  (** [k] increments while memory stays as it is. *)
  Fixpoint repeated (fuel k : nat) (h : heap) (s : S) : res S :=
    match k with
    | O => Ok s
    | Datatypes.S k' => do s1 <- increment fuel h s; repeated fuel k' h s1
    end.
End Play.

(** [lists alg x n P answers]: the terms with property [P] within distance [n] of
    [x], with their distances, each once. *)
Definition lists (alg : algorithm) (x : str) (n : N) (P : str -> Prop) (answers : list (str * N)) : Prop :=
  NoDup (map fst answers) /\
  forall w d, In (w, d) answers <-> P w /\ edit_distance alg x w (N.to_nat d) /\ (d <= n)%N.

(** A query that shows the [k]-th answer, or is at its end if there is none. *)
Definition shows {R : Type} (rt : result_type R) (answers : list (str * N)) (k : nat) (q : query R) : Prop :=
  match nth_error answers k with
  | Some (w, d) => q_complete q = false /\ q_candidate q = r_update rt w d
  | None => q_complete q = true
  end.

(** The increment of a query. *)
Definition query_step {R : Type} (rt : result_type R) (alg : algorithm) (x : str) (n : N)
  (fuel : nat) (h : heap) (q : query R) : res (query R) := advance_query rt h alg x n fuel q.

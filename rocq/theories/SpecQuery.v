(** * SpecQuery: vocabulary for statements about queries. *)
From Verif Require Export SpecLimits.
From Verif Require Import Base Spec ModelTransducer ModelDawg ModelSerial ModelQuery SpecDawg.

(** [dictionary terms h d]: [d] holds exactly [terms] and memory is [h].  It was
    returned by sorted_dawg, with some allocator and some other objects in
    memory; or made by calls of add, of which those for [terms] were accepted,
    and finish(); or it was restored by from_protobuf, perhaps in another
    process, from what to_protobuf wrote for a dictionary with these terms.  Its
    nodes have not been touched since, whatever else has changed in memory. *)
Inductive dictionary (terms : list str) : heap -> dawg -> Prop :=
| dictionary_sorted : forall alloc h0 h b, allocator alloc ->
    runs_to (fun fuel => sorted_dawg fuel alloc h0 terms) (h, Some b) ->
    dictionary terms h (b_dawg b)
| dictionary_finished : forall alloc h0 offered flags h b, allocator alloc ->
    runs_to (fun fuel => finished fuel alloc h0 offered) (flags, h, b) ->
    greedy [] offered flags terms ->
    dictionary terms h (b_dawg b)
| dictionary_restored : forall alloc h d m h1 h2 b, dictionary terms h d ->
    runs_to (fun fuel => to_protobuf fuel h d) m ->
    allocator alloc -> from_protobuf alloc h1 m = Ok (h2, b) ->
    dictionary terms h2 (b_dawg b)
| dictionary_untouched : forall h d h', dictionary terms h d ->
    (forall p, reach h (d_root d) p -> hget h' p = hget h p) ->
    dictionary terms h' d.

(** Sizes the program can handle: query strings up to INT_MAX characters, or
    longer ones if 2n + 1 is at most INT_MAX (a loop counter is an int);
    distances that fit a size_t, dictionary terms of less than 2^62 characters. *)
Definition within_limits (terms : list str) (q : str) (n : N) : Prop :=
  manageable q n /\ (n <= SIZE_MAX)%N /\
  forall t, In t terms -> (N.of_nat (length t) < 2 ^ 62)%N.

(** Iterating over Transducer<alg, Result>(d->root())(q, n) terminates without
    undefined behaviour and yields [results]. *)
Definition yields {R : Type} (rt : result_type R) (alg : algorithm) (h : heap) (d : dawg)
  (q : str) (n : N) (results : list R) : Prop :=
  runs_to (fun fuel => query_all rt fuel h (new_transducer alg (d_root d)) q n) results.

(** The iterator after construction and [k] increments is [it]. *)
Definition stands_at {R : Type} (rt : result_type R) (alg : algorithm) (h : heap) (d : dawg)
  (q : str) (n : N) (k : nat) (it : query R) : Prop :=
  runs_to (fun fuel => query_after rt fuel h (new_transducer alg (d_root d)) q n k) it.

(** ** Several queries at a time on one transducer *)
Section Sessions.
  Context {R : Type} (rt : result_type R).
  Variables (h : heap) (t : transducer).

  (** A running query: the string asked for, the distance, the iterator. *)
  Definition session := (str * N * query R)%type.

  (** [++] on the [i]-th iterator. *)
  Fixpoint bump_session (fuel : nat) (ss : list session) (i : nat) : res (list session) :=
    match ss, i with
    | [], _ => Ok []
    | (q, n, it) :: ss', O => do it' <- advance_query rt h (tr_alg t) q n fuel it; Ok ((q, n, it') :: ss')
    | s :: ss', S i' => do ss1 <- bump_session fuel ss' i'; Ok (s :: ss1)
    end.

  Fixpoint run_schedule (fuel : nat) (ss : list session) (schedule : list nat) : res (list session) :=
    match schedule with
    | [] => Ok ss
    | i :: schedule' => do ss1 <- bump_session fuel ss i; run_schedule fuel ss1 schedule'
    end.

  (** Constructs one iterator for each of the given queries. *)
  Fixpoint open_sessions (fuel : nat) (qs : list (str * N)) : res (list session) :=
    match qs with
    | [] => Ok []
    | (q, n) :: qs' =>
        do it <- begin_query rt fuel h t q n;
        do ss <- open_sessions fuel qs';
        Ok ((q, n, it) :: ss)
    end.

  (** Opens the queries and increments them in the order of [schedule]. *)
  Definition interleaved (fuel : nat) (qs : list (str * N)) (schedule : list nat) : res (list session) :=
    do ss <- open_sessions fuel qs; run_schedule fuel ss schedule.
End Sessions.

(** * Spec for the transducer's positions and states.

    Only the record of positions is taken from the model. *)
From Coq Require Export Sorting.Sorted Sorting.Permutation.
From Verif Require Import Base Spec.
From Verif Require Export SpecLimits ModelTransducer.

(** The fields of a position that an algorithm uses: STANDARD ignores the
    special flag. *)
Definition flag (alg : algorithm) (p : position) : bool :=
  match alg with STANDARD => false | _ => sp p end.

Definition same_position (alg : algorithm) (p q : position) : Prop :=
  ti p = ti q /\ ne p = ne q /\ flag alg p = flag alg q.

(** Lexicographic order on (index, errors, special), ordinary before special. *)
Definition position_le (alg : algorithm) (p q : position) : Prop :=
  (ti p < ti q \/ ti p = ti q /\
    (ne p < ne q \/ ne p = ne q /\ (flag alg p = false \/ flag alg q = true)))%N.

(** Strictly descending order of (errors, index, special). *)
Definition position_gt (alg : algorithm) (p q : position) : Prop :=
  (ne q < ne p \/ ne p = ne q /\
    (ti q < ti p \/ ti p = ti q /\ flag alg p = true /\ flag alg q = false))%N.

(** Both numbers of a position are 64-bit. *)
Definition fits (p : position) : Prop := (ti p < 2 ^ 64)%N /\ (ne p < 2 ^ 64)%N.

(** [accepts alg x n p u]: from position [p] = (i, e) the word [u] can still be
    completed: the rest of the query [x] from index [i] on and [u] can be
    aligned with at most [n - e] further errors.  A special position stands in
    the middle of an operation: of a swap (the next character of [u] must be
    query character [i], then go on at [i+2]) or of a split (the next character
    of [u] is arbitrary, then go on at [i+1]). *)
Definition within (alg : algorithm) (k : nat) (v w : str) : Prop :=
  exists m, m <= k /\ aligned alg m v w.

Definition accepts (alg : algorithm) (x : str) (n : nat) (p : position) (u : str) : Prop :=
  let i := N.to_nat (ti p) in
  let e := N.to_nat (ne p) in
  e <= n /\
  if flag alg p then
    match alg with
    | STANDARD => False
    | TRANSPOSITION => exists c1 c2 rest u',
        skipn i x = c1 :: c2 :: rest /\ u = c1 :: u' /\ within alg (n - e) rest u'
    | MERGE_AND_SPLIT => exists c1 rest c u',
        skipn i x = c1 :: rest /\ u = c :: u' /\ within alg (n - e) rest u'
    end
  else within alg (n - e) (skipn i x) u.

(** Reading a word with StateTransition, one label after the other, the way
    LazyQuery does (lazy_query.cpp:42-57): [None] once the null pointer has
    been returned. *)
Fixpoint read (alg : algorithm) (x : str) (n : N) (st : state) (v : str) : res (option state) :=
  match v with
  | [] => Ok (Some st)
  | c :: v' =>
      match st with
      | [] => UB
      | h :: _ =>
          do cv <- characteristic_vector c x (query_k (query_a n) (N.of_nat (length x)) (ti h)) (ti h);
          do o <- state_transition alg n (N.of_nat (length x)) st cv;
          match o with
          | None => Ok None
          | Some st' => read alg x n st' v'
          end
      end
  end.

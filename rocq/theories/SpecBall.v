(** * SpecBall: how many strings can be close to a string (C96). *)
From Verif Require Import Base Spec.
Local Open Scope nat_scope.

(** Ways of editing a string at one of its characters when there are [s] letters
    to insert or substitute: insert or substitute one of them, delete it; swap it
    with the next; merge it with the next into one of the letters, or split it
    into two of them. *)
Definition choices (alg : algorithm) (s : nat) : nat :=
  match alg with
  | STANDARD => s + s + 1
  | TRANSPOSITION => s + s + 1 + 1
  | MERGE_AND_SPLIT => s + s + 1 + s + s * s
  end.

(** A polynomial in the length [m] of the query and the number [s] of letters, of
    degree [n] in the former. *)
Definition nearby (alg : algorithm) (s m n : nat) : nat := ((m + 1) * choices alg s + 1) ^ n.

(** [letters] contains every character of every term. *)
Definition written_with (letters : list char) (terms : list str) : Prop :=
  forall t c, In t terms -> In c t -> In c letters.

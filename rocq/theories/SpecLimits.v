(** How long query strings may be. *)
From Coq Require Import NArith List Lia.
From Verif Require Import Base.

(** The program fills a window of at most 2n + 1 characters of the query string
    in a loop whose counter is an [int]; lengths are of type [size_t]. *)
Definition manageable (q : str) (n : N) : Prop :=
  (N.of_nat (length q) < 2 ^ 62)%N /\
  ((N.of_nat (length q) <= INT_MAX)%N \/ (2 * n + 1 <= INT_MAX)%N).

Lemma manageable_short x n : (N.of_nat (length x) <= INT_MAX)%N -> manageable x n.
Proof.
  intros H. split; [|now left]. change (2 ^ 62)%N with 4611686018427387904%N.
  change INT_MAX with 2147483647%N in H. lia.
Qed.

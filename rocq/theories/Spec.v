(** * Spec: what the properties talk about, independent of the model.

    Edit operations on byte strings, least number of operations, alignments,
    orders on strings.  This file uses nothing but strings. *)
From Verif Require Import Base.

(** The three families of elementary operations (algorithm.h). *)
Inductive algorithm := STANDARD | TRANSPOSITION | MERGE_AND_SPLIT.

(** ** Elementary operations, applied anywhere in a string *)
Inductive edit_op (a : algorithm) : str -> str -> Prop :=
| op_insert : forall p s c, edit_op a (p ++ s) (p ++ c :: s)
| op_delete : forall p s c, edit_op a (p ++ c :: s) (p ++ s)
| op_substitute : forall p s c d, edit_op a (p ++ c :: s) (p ++ d :: s)
| op_transpose : forall p s c d, a = TRANSPOSITION ->
    edit_op a (p ++ c :: d :: s) (p ++ d :: c :: s)
| op_merge : forall p s c d e, a = MERGE_AND_SPLIT ->
    edit_op a (p ++ c :: d :: s) (p ++ e :: s)
| op_split : forall p s c d e, a = MERGE_AND_SPLIT ->
    edit_op a (p ++ c :: s) (p ++ d :: e :: s).

(** [edits a n v w]: [v] can be turned into [w] by exactly [n] operations. *)
Inductive edits (a : algorithm) : nat -> str -> str -> Prop :=
| edits_done : forall v, edits a 0 v v
| edits_step : forall n u v w, edit_op a u v -> edits a n v w -> edits a (S n) u w.

Definition least (P : nat -> Prop) (n : nat) : Prop :=
  P n /\ forall m, P m -> n <= m.

(** ** Alignments

    [aligned a n v w]: [v] and [w] can be cut into consecutive corresponding
    pieces, each piece being one equal character (cost 0) or one elementary
    operation (cost 1), with total cost [n].  No piece is edited twice.  For
    TRANSPOSITION the least [n] is the optimal-string-alignment (restricted
    Damerau-Levenshtein) distance. *)
Inductive aligned (a : algorithm) : nat -> str -> str -> Prop :=
| al_nil : aligned a 0 [] []
| al_equal : forall n c v w, aligned a n v w -> aligned a n (c :: v) (c :: w)
| al_delete : forall n c v w, aligned a n v w -> aligned a (S n) (c :: v) w
| al_insert : forall n c v w, aligned a n v w -> aligned a (S n) v (c :: w)
| al_substitute : forall n c d v w, aligned a n v w -> aligned a (S n) (c :: v) (d :: w)
| al_transpose : forall n c d v w, a = TRANSPOSITION -> aligned a n v w ->
    aligned a (S n) (c :: d :: v) (d :: c :: w)
| al_merge : forall n c d e v w, a = MERGE_AND_SPLIT -> aligned a n v w ->
    aligned a (S n) (c :: d :: v) (e :: w)
| al_split : forall n c d e v w, a = MERGE_AND_SPLIT -> aligned a n v w ->
    aligned a (S n) (c :: v) (d :: e :: w).

(** The number each algorithm is meant to compute: least number of operations
    for STANDARD and MERGE_AND_SPLIT, least alignment cost for TRANSPOSITION. *)
Definition edit_distance (a : algorithm) (v w : str) (d : nat) : Prop :=
  match a with
  | TRANSPOSITION => least (fun n => aligned TRANSPOSITION n v w) d
  | _ => least (fun n => edits a n v w) d
  end.

(** ** Orders on strings *)

(** Strict lexicographic order on unsigned bytes ([std::string::operator<]). *)
Inductive lex_lt : str -> str -> Prop :=
| lex_nil : forall b w, lex_lt [] (b :: w)
| lex_head : forall a b v w, (uchar a < uchar b)%N -> lex_lt (a :: v) (b :: w)
| lex_tail : forall a v w, lex_lt v w -> lex_lt (a :: v) (a :: w).

Definition lex_le (v w : str) : Prop := v = w \/ lex_lt v w.

(** Ascending, repetitions allowed / not allowed. *)
Inductive sorted_by (R : str -> str -> Prop) : list str -> Prop :=
| sorted_nil : sorted_by R []
| sorted_one : forall v, sorted_by R [v]
| sorted_cons : forall v w l, R v w -> sorted_by R (w :: l) -> sorted_by R (v :: w :: l).

Definition ascending (l : list str) : Prop := sorted_by lex_le l.
Definition strictly_ascending (l : list str) : Prop := sorted_by lex_lt l.

(** Order in which dictionaries are iterated: by length, then lexicographically
    on signed bytes. *)
Inductive slex_lt : str -> str -> Prop :=
| slex_nil : forall b w, slex_lt [] (b :: w)
| slex_head : forall a b v w, (schar a < schar b)%Z -> slex_lt (a :: v) (b :: w)
| slex_tail : forall a v w, slex_lt v w -> slex_lt (a :: v) (a :: w).

Definition shortlex_lt (v w : str) : Prop :=
  length v < length w \/ (length v = length w /\ slex_lt v w).

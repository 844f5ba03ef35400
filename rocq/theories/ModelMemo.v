(** * ModelMemo: the memo of a distance function as a hash table.

    ModelDistance takes the std::unordered_map (memoized_distance.h:52-53) for
    the finite map it stands for.  Here it is an array of buckets; a key is
    looked for only in the bucket its hash code leads to. *)
From Verif Require Import Base Spec ModelDistance ModelHash.

(** The buckets. *)
Definition buckets := list (list (key * nat)).

(** A new unordered_map; libstdc++ starts with one bucket. *)
Definition new_buckets : buckets := [[]].

Definition bucket_of (t : buckets) (code : N) : nat := N.to_nat (code mod N.of_nat (length t)).

(** The entry of a key within a bucket, found with operator==. *)
Fixpoint find_in (k : key) (b : list (key * nat)) : option nat :=
  match b with
  | [] => None
  | (k', d) :: b' => if key_eqb k k' then Some d else find_in k b'
  end.

Fixpoint at_bucket (f : list (key * nat) -> list (key * nat)) (t : buckets) (i : nat) : buckets :=
  match t, i with
  | [], _ => []
  | b :: t', O => f b :: t'
  | b :: t', S i' => b :: at_bucket f t' i'
  end.

(** A new entry at the front of its bucket. *)
Definition push (t : buckets) (e : key * nat) : res buckets :=
  do code <- pair_hash (fst e);
  Ok (at_bucket (cons e) t (bucket_of t code)).

Fixpoint push_all (t : buckets) (es : list (key * nat)) : res buckets :=
  match es with
  | [] => Ok t
  | e :: es' => do t1 <- push t e; push_all t1 es'
  end.

(** Moving all entries to [S n] new buckets. *)
Definition rehash (n : nat) (t : buckets) : res buckets := push_all (repeat [] (S n)) (concat t).

(** MemoizedDistance::get (memoized_distance.cpp:9-17): [memo.find(key)]. *)
Definition table_get (t : buckets) (k : key) : res (option nat) :=
  do code <- pair_hash k;
  Ok (find_in k (nth (bucket_of t code) t [])).

Definition replace_in (k : key) (d : nat) (b : list (key * nat)) : list (key * nat) :=
  map (fun e => if key_eqb k (fst e) then (fst e, d) else e) b.

(** MemoizedDistance::set (memoized_distance.cpp:19-24): [memo\[key\] = distance].
    [grow] is how the implementation decides whether to rehash before an
    insertion, and to how many buckets. *)
Definition table_set (grow : buckets -> option nat) (t : buckets) (k : key) (d : nat) : res buckets :=
  do code <- pair_hash k;
  let i := bucket_of t code in
  match find_in k (nth i t []) with
  | Some _ => Ok (at_bucket (replace_in k d) t i)
  | None =>
      do t1 <- match grow t with Some n => rehash n t | None => Ok t end;
      push t1 (k, d)
  end.

(** A program that uses the table. *)
Fixpoint run_hashed (grow : buckets -> option nat) {A : Type} (p : prog A) (t : buckets) : res (A * buckets) :=
  match p with
  | Ret x => Ok (x, t)
  | GetM k c => do o <- table_get t k; run_hashed grow (c o) t
  | SetM k d c => do t1 <- table_set grow t k d; run_hashed grow c t1
  | Stuck => OOF
  end.

(** * Model of src/liblevenshtein/distance/

    [between] of the three Distance classes, as a program that interacts with
    the shared memo table only through [get] and [set].  Each of these two is
    one critical section in the source (memoized_distance.cpp:10 shared_lock,
    :21 unique_lock), so it is one atomic action here. *)
From Verif Require Import Base Spec.

(** symmetric_pair.cpp:9-17 SymmetricPair::SymmetricPair; a key is (first, second). *)
Definition key := (str * str)%type.
Definition symmetric_pair (u v : str) : key :=
  if str_ltb u v then (u, v) else (v, u).

(** symmetric_pair.cpp:19-21 SymmetricPair::operator== *)
Definition key_eqb (k l : key) : bool :=
  str_eqb (fst k) (fst l) && str_eqb (snd k) (snd l).

(** memoized_distance.h:52-53 [memo], an unordered_map keyed by SymmetricPair.
    Simplified to the finite map it implements; that equal keys have equal hash
    codes, which the container needs, is proved separately. *)
Definition memo := list (key * nat).

(** memoized_distance.cpp:9-17 get *)
Fixpoint memo_get (m : memo) (k : key) : option nat :=
  match m with
  | [] => None
  | (k', d) :: m' => if key_eqb k' k then Some d else memo_get m' k
  end.

(** memoized_distance.cpp:19-24 set: [memo\[key\] = distance], the newest entry
    for a key is the one found. *)
Definition memo_set (m : memo) (k : key) (d : nat) : memo := (k, d) :: m.

(** memoized_distance.cpp:26-31 f: [t < u.length() ? u.substr(1 + t) : ""] *)
Definition f_suffix (u : str) (t : nat) : str :=
  if t <? length u then skipn (1 + t) u else [].

(** Programs over the memo: [GetM] and [SetM] are the two critical sections,
    [Stuck] is fuel exhaustion (see [res] in Base for the role of fuel). *)
Inductive prog (A : Type) : Type :=
| Ret (x : A)
| GetM (k : key) (c : option nat -> prog A)
| SetM (k : key) (d : nat) (c : prog A)
| Stuck.
Arguments Ret {A} x.
Arguments GetM {A} k c.
Arguments SetM {A} k d c.
Arguments Stuck {A}.

Fixpoint pbind {A B : Type} (p : prog A) (f : A -> prog B) : prog B :=
  match p with
  | Ret x => f x
  | GetM k c => GetM k (fun o => pbind (c o) f)
  | SetM k d c => SetM k d (pbind c f)
  | Stuck => Stuck
  end.

(** [return set(key, d);] *)
Definition return_set (k : key) (d : nat) : prog nat := SetM k d (Ret d).

(** standard_distance.cpp:25-29, transposition_distance.cpp:26-30,
    merge_and_split_distance.cpp:32-36: the loop discarding identical leading
    characters.  [v = a :: s] and [w = b :: t] throughout; the final values of
    a, s, b, t are returned. *)
Fixpoint discard (a : char) (s : str) (b : char) (t : str)
  : char * str * char * str :=
  match s, t with
  | a' :: s', b' :: t' => if ceqb a b then discard a' s' b' t' else (a, s, b, t)
  | _, _ => (a, s, b, t)
  end.

(** The recursive calls each class makes after discarding, in source order; [v]
    is [a :: x], [w] is [b :: y].

    standard_distance.cpp:39,46,55: between(s,w), between(v,t), between(s,t).
    transposition_distance.cpp:40,47,56,65-69: the same and, if both tails are
    non-empty and the first two characters are swapped, between(f(v,1), f(w,1)).
    merge_and_split_distance.cpp:46,53,62,71-72,83-84: the same three, then
    between(x, f(w,1)) if |w| > 1 and between(f(v,1), y) if |v| > 1. *)
Definition recursive_calls (alg : algorithm) (a : char) (x : str) (b : char) (y : str)
  : list (str * str) :=
  let v := a :: x in
  let w := b :: y in
  [(x, w); (v, y); (x, y)] ++
  match alg with
  | STANDARD => []
  | TRANSPOSITION =>
      match x, y with
      | a1 :: _, b1 :: _ =>
          if ceqb a b1 && ceqb a1 b then [(f_suffix v 1, f_suffix w 1)] else []
      | _, _ => []
      end
  | MERGE_AND_SPLIT =>
      (if 1 <? length w then [(x, f_suffix w 1)] else []) ++
      (if 1 <? length v then [(f_suffix v 1, y)] else [])
  end.

(** The repeated block [distance = between(..); if (0 == distance) return
    set(key, 1); if (distance < min_distance) min_distance = distance;] for each
    recursive call in order, then [return set(key, 1 + min_distance)]
    (standard_distance.cpp:39-64 and the same in the other two files).
    [min] is None before the first call. *)
Fixpoint try_calls (rec : str -> str -> prog nat) (k : key)
         (calls : list (str * str)) (min : option nat) : prog nat :=
  match calls with
  | [] => match min with
          | Some m => return_set k (1 + m)
          | None => Stuck   (* unreachable: there are at least three calls *)
          end
  | (p, q) :: rest =>
      pbind (rec p q) (fun d =>
        if 0 =? d then return_set k 1
        else try_calls rec k rest
               (Some (match min with
                      | None => d
                      | Some m => if d <? m then d else m
                      end)))
  end.

(** StandardDistance::between standard_distance.cpp:6-65,
    TranspositionDistance::between transposition_distance.cpp:6-82,
    MergeAndSplitDistance::between merge_and_split_distance.cpp:6-96. *)
Fixpoint between_fuel (fuel : nat) (alg : algorithm) (v w : str) : prog nat :=
  match fuel with
  | O => Stuck
  | S fuel =>
      let k := symmetric_pair v w in
      GetM k (fun o =>
        match o with
        | Some d => Ret d
        | None =>
            match v, w with
            | [], _ => return_set k (length w)
            | _, [] => return_set k (length v)
            | a :: s, b :: t =>
                let '(a, x, b, y) := discard a s b t in
                if ceqb a b then
                  match x with
                  | [] => return_set k (length y)
                  | _ => return_set k (length x)
                  end
                else try_calls (between_fuel fuel alg) k
                               (recursive_calls alg a x b y) None
            end
        end)
  end.

(** The recursion depth never exceeds the total length. *)
Definition between (alg : algorithm) (v w : str) : prog nat :=
  between_fuel (S (length v + length w)) alg v w.

(** ** Sequential execution on a memo *)
Fixpoint run {A : Type} (p : prog A) (m : memo) : res (A * memo) :=
  match p with
  | Ret x => Ok (x, m)
  | GetM k c => run (c (memo_get m k)) m
  | SetM k d c => run c (memo_set m k d)
  | Stuck => OOF
  end.

(** A list of calls [between(v,w)] made one after the other. *)
Fixpoint calls (alg : algorithm) (l : list (str * str)) : prog (list nat) :=
  match l with
  | [] => Ret []
  | (v, w) :: l' =>
      pbind (between alg v w) (fun d => pbind (calls alg l') (fun ds => Ret (d :: ds)))
  end.

(** ** Concurrent execution: a pool of threads sharing one memo

    One step runs one critical section of one thread. *)
Inductive thread_step {A : Type} : memo -> prog A -> memo -> prog A -> Prop :=
| step_get : forall m k c, thread_step m (GetM k c) m (c (memo_get m k))
| step_set : forall m k d c, thread_step m (SetM k d c) (memo_set m k d) c.

Inductive pool_step {A : Type} : memo * list (prog A) -> memo * list (prog A) -> Prop :=
| pool_step_at : forall m m' pre p p' post,
    thread_step m p m' p' ->
    pool_step (m, pre ++ p :: post) (m', pre ++ p' :: post).

Inductive pool_steps {A : Type} : nat -> memo * list (prog A) -> memo * list (prog A) -> Prop :=
| pool_done : forall c, pool_steps 0 c c
| pool_more : forall n c c' c'', pool_step c c' -> pool_steps n c' c'' -> pool_steps (S n) c c''.

(** * Model of src/liblevenshtein/transducer/: positions and states

    A State is the sequence of its positions, head first (the next pointers of
    state.cpp are modelled separately in ModelState.v).  All size_t arithmetic
    wraps modulo 2^64. *)
From Verif Require Import Base Spec.
Local Open Scope N_scope.

(** position.h: Position (term_index, num_errors, is_special) *)
Record position := Pos { ti : N; ne : N; sp : bool }.

Definition state := list position.

(** comparator.cpp:9-28 compare<STANDARD>, :30-50 compare<TRANSPOSITION>,
    :52-72 compare<MERGE_AND_SPLIT>.  The last difference of the latter two is
    [int(lhs->is_special()) - int(rhs->is_special())]. *)
Definition compare (alg : algorithm) (l r : position) : Z :=
  if ti l <? ti r then (-1)%Z
  else if ti r <? ti l then 1%Z
  else if ne l <? ne r then (-1)%Z
  else if ne r <? ne l then 1%Z
  else match alg with
       | STANDARD => 0%Z
       | _ => (Z.b2z (sp l) - Z.b2z (sp r))%Z
       end.

(** ** merge.cpp *)

(** The condition of the while loops, merge.cpp:33 (STANDARD) and :77, :125. *)
Definition merge_before (alg : algorithm) (a b : position) : bool :=
  (ne a <? ne b) ||
  (ne a =? ne b) &&
    ((ti a <? ti b) ||
     match alg with
     | STANDARD => false
     | _ => (ti a =? ti b) && negb (sp a) && sp b
     end).

(** The test deciding between insertion and deletion of [a], merge.cpp:46 and
    :94, :142 (negated: the two positions are the same). *)
Definition merge_same (alg : algorithm) (a b : position) : bool :=
  (ti b =? ti a) && (ne b =? ne a) &&
  match alg with
  | STANDARD => true
  | _ => Bool.eqb (sp b) (sp a)
  end.

(** One iteration of the outer loop of merge<...> (merge.cpp:20-56, :62-104,
    :110-152): advance past the positions for which [merge_before] holds, then
    insert [a] there (insert_after, merge.cpp:8-15) unless the position found
    is the same, in which case [a] is deleted. *)
Fixpoint merge_one (alg : algorithm) (st : state) (a : position) : state :=
  match st with
  | [] => [a]
  | b :: st' =>
      if merge_before alg a b then b :: merge_one alg st' a
      else if merge_same alg a b then st
      else a :: st
  end.

(** merge<...>(state, positions) *)
Definition merge (alg : algorithm) (st : state) (ps : list position) : state :=
  fold_left (merge_one alg) ps st.

(** ** subsumes.cpp *)
Definition abs_diff (i j : N) : N := if i <? j then wsub j i else wsub i j.

(** subsumes.cpp:5-13 STANDARD, :15-39 TRANSPOSITION, :41-56 MERGE_AND_SPLIT.
    The second flag is read from [lhs] in the source (lines 24 and 49). *)
Definition subsumes (alg : algorithm) (lhs rhs : position) (n : N) : bool :=
  let i := ti lhs in
  let e := ne lhs in
  let s := sp lhs in
  let j := ti rhs in
  let f := ne rhs in
  let t := sp lhs in
  match alg with
  | STANDARD => abs_diff i j <=? wsub f e
  | TRANSPOSITION =>
      if s then
        if t then i =? j
        else (f =? n) && (i =? j)
      else if t then
        (if j <? i then wsub (wsub i j) 1 else wadd (wsub j i) 1) <=? wsub f e
      else abs_diff i j <=? wsub f e
  | MERGE_AND_SPLIT =>
      if s && negb t then false
      else abs_diff i j <=? wsub f e
  end.

(** ** unsubsume.cpp:10-38 UnsubsumeFn::operator()

    For each remaining [outer]: skip inner positions until one has more errors
    than [outer] (:20-26), then remove, from there to the end, every position
    that [outer] subsumes (:28-34). *)
Fixpoint skip_remove (alg : algorithm) (n : N) (outer : position) (l : state) : state :=
  match l with
  | [] => []
  | inner :: l' =>
      if ne outer <? ne inner
      then filter (fun p => negb (subsumes alg outer p n)) l
      else inner :: skip_remove alg n outer l'
  end.

(** The recursion is on the number of positions (a bound, no fuel issue). *)
Fixpoint unsubsume_steps (steps : nat) (alg : algorithm) (n : N) (l : state) : state :=
  match steps, l with
  | S k, outer :: l' => outer :: unsubsume_steps k alg n (skip_remove alg n outer l')
  | _, _ => l
  end.

Definition unsubsume (alg : algorithm) (n : N) (l : state) : state :=
  unsubsume_steps (length l) alg n l.

(** ** state.cpp: sorting *)

(** state.cpp:88-116 State::merge: [compare(lower, upper) < 1] takes lower. *)
Fixpoint merge_lists (cmp : position -> position -> Z) (lower upper : state) : state :=
  let fix go (upper : state) : state :=
    match lower, upper with
    | [], _ => upper
    | _, [] => lower
    | a :: lower', b :: upper' =>
        if (cmp a b <? 1)%Z then a :: merge_lists cmp lower' upper
        else b :: go upper'
    end in
  go upper.

(** state.cpp:118-128 find_middle returns the element number (length - 1) / 2,
    so the lower half has (length + 1) / 2 elements (:79-81). *)
Definition halves (l : state) : state * state :=
  let k := Nat.div (length l + 1) 2 in (firstn k l, skipn k l).

(** state.cpp:73-86 State::merge_sort, :130-132 State::sort.  [fuel] bounds the
    recursion depth; [sort] starts with the length, which suffices (proved by
    the specification of [sort]). *)
Fixpoint merge_sort (fuel : nat) (cmp : position -> position -> Z) (l : state) : res state :=
  match l with
  | [] => Ok l
  | [_] => Ok l
  | _ =>
      match fuel with
      | O => OOF
      | S f =>
          let '(lower, upper) := halves l in
          do a <- merge_sort f cmp lower;
          do b <- merge_sort f cmp upper;
          Ok (merge_lists cmp a b)
      end
  end.

Definition sort (cmp : position -> position -> Z) (l : state) : res state :=
  merge_sort (length l) cmp l.

(** ** position_transition.cpp *)

(** [characteristic_vector\[i\]]: out of range is undefined behaviour. *)
Definition cv_at (cv : list bool) (i : N) : res bool :=
  if i <? N.of_nat (length cv) then deref (nth_error cv (N.to_nat i)) else UB.

(** position_transition.cpp:6-14 index_of; exactly k iterations at most. *)
Fixpoint index_of_loop (cv : list bool) (steps : nat) (i j : N) : res N :=
  match steps with
  | O => Ok SIZE_MAX
  | S s =>
      do b <- cv_at cv (wadd i j);
      if b then Ok j else index_of_loop cv s i (wadd j 1)
  end.

Definition index_of (cv : list bool) (k i : N) : res N :=
  index_of_loop cv (N.to_nat k) i 0.

(** position_transition.cpp:28-32, :96-100, :150-154:
    [a = (n - e < SIZE_MAX) ? n - e + 1 : SIZE_MAX; b = w - h; k = min(a, b)] *)
Definition window (n e w h : N) : N :=
  let a := if wsub n e <? SIZE_MAX then wadd (wsub n e) 1 else SIZE_MAX in
  let b := wsub w h in
  if a <? b then a else b.

(** position_transition.cpp:16-80 *)
Definition transition_standard (n : N) (p : position) (cv : list bool) (offset : N)
  : res (list position) :=
  let i := ti p in
  let e := ne p in
  let h := wsub i offset in
  let w := N.of_nat (length cv) in
  if e <? n then
    if wadd h 2 <=? w then
      do j <- index_of cv (window n e w h) h;
      if j =? 0 then Ok [Pos (wadd i 1) e false]
      else if negb (j =? SIZE_MAX) then
        Ok [Pos i (wadd e 1) false;
            Pos (wadd i 1) (wadd e 1) false;
            Pos (wadd (wadd i j) 1) (wadd e j) false]
      else Ok [Pos i (wadd e 1) false; Pos (wadd i 1) (wadd e 1) false]
    else if wadd h 1 =? w then
      do b <- cv_at cv h;
      if b then Ok [Pos (wadd i 1) e false]
      else Ok [Pos i (wadd e 1) false; Pos (wadd i 1) (wadd e 1) false]
    else Ok [Pos i (wadd e 1) false]
  else if (e =? n) && (wadd h 1 <=? w) then
    do b <- cv_at cv h;
    if b then Ok [Pos (wadd i 1) n false] else Ok []
  else Ok [].

(** position_transition.cpp:83-227 *)
Definition transition_transposition (n : N) (p : position) (cv : list bool) (offset : N)
  : res (list position) :=
  let i := ti p in
  let e := ne p in
  let t := sp p in
  let h := wsub i offset in
  let w := N.of_nat (length cv) in
  if (e =? 0) && (0 <? n) then
    if wadd h 2 <=? w then
      do j <- index_of cv (window n e w h) h;
      if j =? 0 then Ok [Pos (wadd i 1) 0 false]
      else if j =? 1 then
        Ok [Pos i 1 false; Pos i 1 true; Pos (wadd i 1) 1 false; Pos (wadd i 2) 1 false]
      else if j =? SIZE_MAX then
        Ok [Pos i 1 false; Pos (wadd i 1) 1 false]
      else
        Ok [Pos i 1 false; Pos (wadd i 1) 1 false; Pos (wadd (wadd i j) 1) j false]
    else if wadd h 1 =? w then
      do b <- cv_at cv h;
      if b then Ok [Pos (wadd i 1) 0 false]
      else Ok [Pos i 1 false; Pos (wadd i 1) 1 false]
    else Ok [Pos i 1 false]
  else if (1 <=? e) && (e <? n) then
    if wadd h 2 <=? w then
      if negb t then
        do j <- index_of cv (window n e w h) h;
        if j =? 0 then Ok [Pos (wadd i 1) e false]
        else if j =? 1 then
          Ok [Pos i (wadd e 1) false; Pos i (wadd e 1) true;
              Pos (wadd i 1) (wadd e 1) false; Pos (wadd i 2) (wadd e 1) false]
        else if j =? SIZE_MAX then
          Ok [Pos i (wadd e 1) false; Pos (wadd i 1) (wadd e 1) false]
        else
          Ok [Pos i (wadd e 1) false; Pos (wadd i 1) (wadd e 1) false;
              Pos (wadd (wadd i j) 1) (wadd e j) false]
      else
        do b <- cv_at cv h;
        if b then Ok [Pos (wadd i 2) e false] else Ok []
    else if wadd h 1 =? w then
      do b <- cv_at cv h;
      if b then Ok [Pos (wadd i 1) e false]
      else Ok [Pos i (wadd e 1) false; Pos (wadd i 1) (wadd e 1) false]
    else Ok [Pos i (wadd e 1) false]
  else if (wadd h 1 <=? w) && negb t then
    do b <- cv_at cv h;
    if b then Ok [Pos (wadd i 1) n false] else Ok []
  else if (wadd h 2 <=? w) && t then
    do b <- cv_at cv h;
    if b then Ok [Pos (wadd i 2) n false] else Ok []
  else Ok [].

(** position_transition.cpp:231-341 *)
Definition transition_merge_and_split (n : N) (p : position) (cv : list bool) (offset : N)
  : res (list position) :=
  let i := ti p in
  let e := ne p in
  let s := sp p in
  let h := wsub i offset in
  let w := N.of_nat (length cv) in
  if (e =? 0) && (0 <? n) then
    if wadd h 2 <=? w then
      do b <- cv_at cv h;
      if b then Ok [Pos (wadd i 1) e false]
      else Ok [Pos i (wadd e 1) false; Pos i (wadd e 1) true;
               Pos (wadd i 1) (wadd e 1) false; Pos (wadd i 2) (wadd e 1) false]
    else if wadd h 1 =? w then
      do b <- cv_at cv h;
      if b then Ok [Pos (wadd i 1) e false]
      else Ok [Pos i (wadd e 1) false; Pos i (wadd e 1) true;
               Pos (wadd i 1) (wadd e 1) false]
    else Ok [Pos i (wadd e 1) false]
  else if e <? n then
    if wadd h 2 <=? w then
      if negb s then
        do b <- cv_at cv h;
        if b then Ok [Pos (wadd i 1) e false]
        else Ok [Pos i (wadd e 1) false; Pos i (wadd e 1) true;
                 Pos (wadd i 1) (wadd e 1) false; Pos (wadd i 2) (wadd e 1) false]
      else Ok [Pos (wadd i 1) e false]
    else if wadd h 1 =? w then
      if negb s then
        do b <- cv_at cv h;
        if b then Ok [Pos (wadd i 1) e false]
        else Ok [Pos i (wadd e 1) false; Pos i (wadd e 1) true;
                 Pos (wadd i 1) (wadd e 1) false]
      else Ok [Pos (wadd i 1) e false]
    else Ok [Pos i (wadd e 1) false]
  else if wadd h 1 <=? w then
    if negb s then
      do b <- cv_at cv h;
      if b then Ok [Pos (wadd i 1) n false] else Ok []
    else Ok [Pos (wadd i 1) e false]
  else Ok [].

Definition position_transition (alg : algorithm) :=
  match alg with
  | STANDARD => transition_standard
  | TRANSPOSITION => transition_transposition
  | MERGE_AND_SPLIT => transition_merge_and_split
  end.

(** ** state_transition.cpp:17-37 StateTransition::operator() *)

(** :24-26 the loop over the positions of the current state *)
Fixpoint merge_transitions (alg : algorithm) (n : N) (cv : list bool) (offset : N)
         (curr : state) (next : state) : res state :=
  match curr with
  | [] => Ok next
  | p :: curr' =>
      do ps <- position_transition alg n p cv offset;
      merge_transitions alg n cv offset curr' (merge alg next ps)
  end.

(** [None] is the null pointer returned at :36.  Line 28 passes the query
    length, not the maximum distance, to unsubsume. *)
Definition state_transition (alg : algorithm) (max_distance query_length : N)
           (curr : state) (cv : list bool) : res (option state) :=
  match curr with
  | [] => UB        (* curr_state->head()->term_index() on a null head, :20 *)
  | head :: _ =>
      do next <- merge_transitions alg max_distance cv (ti head) curr [];
      match unsubsume alg query_length next with
      | [] => Ok None
      | next' => do sorted <- sort (compare alg) next'; Ok (Some sorted)
      end
  end.

(** ** distance.cpp:9-22, :24-39, :41-57 distance<...> *)
Fixpoint distance_loop (alg : algorithm) (query_length : N) (st : state) (min : N) : N :=
  match st with
  | [] => min
  | p :: st' =>
      let considered := match alg with STANDARD => true | _ => negb (sp p) end in
      let d := wadd (wsub query_length (ti p)) (ne p) in
      let min' := if considered && (d <? min) then d else min in
      distance_loop alg query_length st' min'
  end.

Definition distance (alg : algorithm) (st : state) (query_length : N) : N :=
  distance_loop alg query_length st SIZE_MAX.

(** ** lazy_query.cpp *)

(** lazy_query.cpp:14-15 initialisation of [_a] *)
Definition query_a (max_distance : N) : N :=
  if max_distance <? N.shiftr (SIZE_MAX - 1) 1
  then wadd ((N.shiftl max_distance 1) mod W) 1 else SIZE_MAX.

(** lazy_query.cpp:43-44 [b = _term.length() - _i; _k = min(_a, b)] *)
Definition query_k (a len i : N) : N :=
  let b := wsub len i in if a <? b then a else b.

(** lazy_query.cpp:124 [term\[i + j\]]: index [length] reads the terminating
    NUL, beyond that is undefined behaviour. *)
Definition term_at (term : str) (i : N) : res char :=
  let len := N.of_nat (length term) in
  if i <? len then deref (nth_error term (N.to_nat i))
  else if i =? len then Ok zero else UB.

(** lazy_query.cpp:119-127 characteristic_vector; the loop variable is an
    [int], whose increment beyond INT_MAX would overflow. *)
Fixpoint cv_loop (x : char) (term : str) (steps : nat) (i j : N) : res (list bool) :=
  match steps with
  | O => Ok []
  | S s =>
      do c <- term_at term (wadd i j);
      do rest <- cv_loop x term s i (j + 1);
      Ok (ceqb x c :: rest)
  end.

Definition characteristic_vector (x : char) (term : str) (k i : N) : res (list bool) :=
  if INT_MAX <? k then UB else cv_loop x term (N.to_nat k) i 0.

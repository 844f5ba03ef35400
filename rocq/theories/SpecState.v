(** * SpecState: what it means for a list of positions to lie in memory. *)
From Verif Require Import Base Spec ModelTransducer ModelDawg ModelState.

(** A position together with the address where it is stored. *)
Notation stored := (ptr * position)%type (only parsing).

(** Following the next pointers from [p] one meets exactly the positions [l], at
    these addresses and in this order, and then the pointer [q]. *)
Fixpoint segment (m : positions) (p : ptr) (l : list stored) (q : ptr) : Prop :=
  match l with
  | [] => p = q
  | (a, x) :: l' =>
      p = a /\ a <> null /\ exists n, mget m a = Some (Cell x n) /\ segment m n l' q
  end.

(** The start, the positions and the end of a segment. *)
Notation chain := (ptr * list stored * ptr)%type (only parsing).
Definition addresses (cs : list chain) : list ptr :=
  flat_map (fun c => map fst (snd (fst c))) cs.

(** [m] consists of the memory [base] and, at addresses that are free in [base]
    and distinct from each other, of the segments [cs], and of nothing else; what
    is constant in [base] still is, and nothing else is. *)
Definition consists_of (m base : positions) (cs : list chain) : Prop :=
  (forall p l q, In (p, l, q) cs -> segment m p l q) /\
  NoDup (addresses cs) /\
  (forall a, In a (addresses cs) -> mget base a = None) /\
  (forall a, ~ In a (addresses cs) -> mget m a = mget base a) /\
  (forall a, mconst m a = mconst base a).

(** [m] is the memory [base] and a null-terminated list [l] that starts at
    [head], i.e. a State with the positions [l]. *)
Definition has_state (m base : positions) (head : ptr) (l : list stored) : Prop :=
  consists_of m base [(head, l, null)].

(** A position that belongs to no list yet: its next pointer is null. *)
Definition loose (s : stored) : chain := (fst s, [s], null).

(** An iterator that stands between [l1] and [l2], i.e. on the first position of
    [l2], resp. at the end if there is none. *)
Definition first_of (l : list stored) : ptr :=
  match l with [] => null | s :: _ => fst s end.
Definition stands (it : iterator) (l1 l2 : list stored) : Prop :=
  it = Iterator (first_of l2) (first_of (tl l2)) (fst (last l1 (null, Pos 0 0 false))).

(** The end of the list. *)
Definition at_end : iterator := Iterator null null null.

(** ** Programs that use a State

    What a program may do with a State, and what it means for the sequence of
    positions; [None] where the program has no such position to name. *)
Inductive operation :=
| Add (x : position)                  (* state.add(new Position(x)) *)
| Head (x : position)                 (* state.head(new Position(x)) *)
| InsertAfter (k : nat) (x : position)(* state.insert_after(k-th, new Position(x)) *)
| Remove (k : nat)                    (* state.remove(the one before, k-th) *)
| Sort (alg : algorithm).             (* state.sort(Comparator) *)

Definition effect (op : operation) (l : list position) : option (list position) :=
  match op with
  | Add x => Some (l ++ [x])
  | Head x => Some (x :: l)
  | InsertAfter k x =>
      if Nat.ltb k (length l) then Some (firstn (S k) l ++ x :: skipn (S k) l) else None
  | Remove k =>
      if Nat.ltb k (length l) then Some (firstn k l ++ skipn (S k) l) else None
  | Sort alg => match sort (compare alg) l with Ok l' => Some l' | _ => None end
  end.

Fixpoint effects (ops : list operation) (l : list position) : option (list position) :=
  match ops with
  | [] => Some l
  | op :: ops' => match effect op l with Some l' => effects ops' l' | None => None end
  end.

(** The same program with pointers.  It finds the [k]-th position by following
    next pointers from the head. *)
Fixpoint position_at (m : positions) (p : ptr) (k : nat) : res ptr :=
  match k with
  | O => Ok p
  | S k' => do q <- get_next m p; position_at m q k'
  end.

Definition perform (fuel : nat) (alloc : positions -> ptr) (order : positions -> ptr -> bool)
  (op : operation) (m : positions) (head : ptr) : res (positions * ptr) :=
  match op with
  | Add x => let (p, m1) := new_position alloc m x in state_add fuel m1 head p
  | Head x => let (p, m1) := new_position alloc m x in state_head m1 head p
  | InsertAfter k x =>
      do c <- position_at m head k;
      let (p, m1) := new_position alloc m x in state_insert_after fuel m1 head c p
  | Remove k =>
      do c <- position_at m head k;
      do b <- match k with O => Ok null | S k' => position_at m head k' end;
      state_remove fuel m head b c
  | Sort alg => state_sort fuel order (compare alg) m head
  end.

Fixpoint performs (fuel : nat) (alloc : positions -> ptr) (order : positions -> ptr -> bool)
         (ops : list operation) (m : positions) (head : ptr) : res (positions * ptr) :=
  match ops with
  | [] => Ok (m, head)
  | op :: ops' =>
      do (m1, head1) <- perform fuel alloc order op m head;
      performs fuel alloc order ops' m1 head1
  end.

(** Programs that walk over a State with its iterator.  The sequence is split
    into the positions passed, the current one, if there is one, and the rest. *)
Inductive step :=
| Next                     (* ++iter *)
| Insert (x : position)    (* iter.insert(new Position(x)) *)
| Erase.                   (* iter.remove() *)

Definition cursor := (list position * option position * list position)%type.

(** The whole sequence, and a walk that has just begun. *)
Definition sequence (c : cursor) : list position :=
  match c with (l1, Some x, l2) => l1 ++ x :: l2 | (l1, None, l2) => l1 ++ l2 end.
Definition begin (l : list position) : cursor :=
  match l with [] => ([], None, []) | x :: l' => ([], Some x, l') end.

(** [None] for an insertion where there is no current position: what happens
    then is not what the documentation says, see [C46_insert_refuted]. *)
Definition walk_one (s : step) (c : cursor) : option cursor :=
  match s, c with
  | Next, (l1, cur, l2) =>
      let l1' := match cur with Some x => l1 ++ [x] | None => l1 end in
      Some (match l2 with [] => (l1', None, []) | y :: l2' => (l1', Some y, l2') end)
  | Insert x, (l1, Some y, l2) => Some (l1, Some y, x :: l2)
  | Insert x, (l1, None, l2) => None
  | Erase, (l1, _, l2) => Some (l1, None, l2)
  end.

Fixpoint walk (ss : list step) (c : cursor) : option cursor :=
  match ss with
  | [] => Some c
  | s :: ss' => match walk_one s c with Some c' => walk ss' c' | None => None end
  end.

Definition move (fuel : nat) (alloc : positions -> ptr) (s : step) (m : positions) (head : ptr)
  (it : iterator) : res (positions * ptr * iterator) :=
  match s with
  | Next => do it1 <- iterator_next m it; Ok (m, head, it1)
  | Insert x =>
      let (p, m1) := new_position alloc m x in iterator_insert fuel m1 head it p
  | Erase =>
      do (m1, head1, it1, _) <- iterator_remove fuel m head it None; Ok (m1, head1, it1)
  end.

Fixpoint moves (fuel : nat) (alloc : positions -> ptr) (ss : list step) (m : positions)
         (head : ptr) (it : iterator) : res (positions * ptr * iterator) :=
  match ss with
  | [] => Ok (m, head, it)
  | s :: ss' =>
      do (m1, head1, it1) <- move fuel alloc s m head it;
      moves fuel alloc ss' m1 head1 it1
  end.

(** The position an iterator refers to. *)
Definition current (m : positions) (it : iterator) : option position :=
  if (si_curr it =? null)%N then None else option_map c_pos (mget m (si_curr it)).

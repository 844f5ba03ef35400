(** * ModelCopies: which string a query reads.

    The strings of the client, the copy that a LazyIterator makes of the string it
    was asked for, and the copy that a LazyQuery makes of that one, as objects of
    their own.  A number [p] stands for the std::string object at some address;
    [None] is an object that was destroyed. *)
From Verif Require Import Base Spec ModelTransducer ModelDawg ModelQuery.
Local Open Scope nat_scope.

(** Objects a client holds: a std::string; a LazyIterator (lazy_query.h:180-236) with
    its _term, its _max_distance and the length that the StateTransition inside
    [transition] was given (transducer.cpp:29-35); a LazyQuery (lazy_query.h:30-167),
    which has the same three and its state. *)
Inductive thing (R : Type) :=
| Var (p : nat)
| Iter (p : nat) (n len : N)
| Qry (p : nat) (n len : N) (q : query R).
Arguments Var {R}. Arguments Iter {R}. Arguments Qry {R}.

(** The std::string inside an object. *)
Definition home {R : Type} (x : thing R) : nat := match x with Var p | Iter p _ _ | Qry p _ _ _ => p end.

(** Reading a string object that was destroyed is undefined. *)
Definition load (strings : list (option str)) (p : nat) : res str :=
  match nth_error strings p with Some (Some s) => Ok s | _ => UB end.

Fixpoint put {A : Type} (l : list A) (i : nat) (x : A) : list A :=
  match l, i with
  | [], _ => []
  | _ :: l, O => x :: l
  | a :: l, S i => a :: put l i x
  end.

(** What a client does; numbers are those of its objects in the order in which they
    were made. *)
Inductive command :=
| NewString (s : str)          (* std::string s = ... *)
| Assign (i : nat) (s : str)   (* s = ... *)
| Ask (i : nat) (n : N)        (* auto found = transducer(s, n) *)
| CopyOf (i : nat)             (* a copy of a string or of a LazyIterator *)
| Begin (i : nat)              (* auto it = found.begin() *)
| Next (i : nat)               (* ++it *)
| Destroy (i : nat).           (* the end of the life of an object *)

Section Copies.
  Context {R : Type} (rt : result_type R).
  Variables (h : heap) (t : transducer).

  Definition world : Type := (list (option str) * list (option (thing R)))%type.

  (** A new object with a string of its own. *)
  Definition make (w : world) (s : str) (x : nat -> thing R) : world :=
    let (strings, things) := w in (strings ++ [Some s], things ++ [Some (x (length strings))]).

  Definition obey (fuel : nat) (w : world) (c : command) : res world :=
    let (strings, things) := w in
    let object i := match nth_error things i with Some (Some x) => Ok x | _ => UB end in
    match c with
    | NewString s => Ok (make w s Var)
    | Assign i s =>
        do x <- object i;
        match x with
        | Var p => do old <- load strings p; Ok (put strings p (Some s), things)
        | _ => UB   (* a client does not see the strings inside the other objects *)
        end
    | Ask i n =>   (* transducer.cpp:25-36; _term(term), lazy_query.cpp:139 *)
        do x <- object i;
        match x with
        | Var p => do s <- load strings p; Ok (make w s (fun p' => Iter p' n (N.of_nat (length s))))
        | _ => UB
        end
    | CopyOf i =>   (* the implicit copy constructors of std::string and LazyIterator *)
        do x <- object i;
        match x with
        | Var p => do s <- load strings p; Ok (make w s Var)
        | Iter p n len => do s <- load strings p; Ok (make w s (fun p' => Iter p' n len))
        | Qry _ _ _ _ => UB   (* see C51 *)
        end
    | Begin i =>   (* lazy_query.cpp:143-147 and 8-25: _term(term) *)
        do x <- object i;
        match x with
        | Iter p n len =>
            do s <- load strings p;
            if N.eqb len (N.of_nat (length s)) then
              do q <- begin_query rt fuel h t s n;
              Ok (make w s (fun p' => Qry p' n len q))
            else UB   (* a transition function for another length: not modelled *)
        | _ => UB
        end
    | Next i =>   (* lazy_query.cpp:33-76, 88-92: reads its own _term *)
        do x <- object i;
        match x with
        | Qry p n len q =>
            do s <- load strings p;
            if N.eqb len (N.of_nat (length s)) then
              do q' <- advance_query rt h (tr_alg t) s n fuel q;
              Ok (strings, put things i (Some (Qry p n len q')))
            else UB
        | _ => UB
        end
    | Destroy i =>
        do x <- object i;
        do s <- load strings (home x);
        Ok (put strings (home x) None, put things i None)
    end.

  Fixpoint obey_all (fuel : nat) (w : world) (cs : list command) : res world :=
    match cs with
    | [] => Ok w
    | c :: cs => do w' <- obey fuel w c; obey_all fuel w' cs
    end.
End Copies.

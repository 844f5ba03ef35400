(** * ModelIterThrow: iterating over a dictionary when memory runs out.

    The functions of ModelIterator with a budget of allocations as in ModelThrow,
    and the state in which std::bad_alloc leaves the iterator.  Every [new]
    expression, every insertion into a container, every call that wraps a lambda
    in a std::function and every string made by Prefix::str counts as one
    allocation, even where the standard library would not need one.  The
    insertions have the strong guarantee: if they throw, the container is as
    before. *)
From Verif Require Import Base Spec ModelTransducer ModelDawg ModelState ModelIterator ModelThrow.
Local Open Scope N_scope.

Section Throw.
  Variables (fuel : nat) (alloc : mem pcell -> ptr) (h : heap).

  (** The body of for_each_edge (dawg_iterator.cpp:48-52).  A prefix belongs to
      nobody until it is in [_prefixes].  The flag is false if an exception was
      thrown. *)
  Fixpoint try_push_children (b : budget) (m : mem pcell) (prefix : ptr) (edges : list (char * ptr))
    (prefixes pending : list ptr) : budget * mem pcell * list ptr * list ptr * bool :=
    match edges with
    | [] => (b, m, prefixes, pending, true)
    | (label, target) :: edges' =>
        match spend b with
        | None => (b, m, prefixes, pending, false)    (* new Prefix *)
        | Some b1 =>
            let (child, m1) := mnew alloc m (PCell target prefix label) in
            match spend b1 with
            | None => (b1, m1, prefixes, pending, false)    (* _prefixes.push_back *)
            | Some b2 =>
                match spend b2 with
                | None => (b2, m1, prefixes ++ [child], pending, false)    (* _pending.push *)
                | Some b3 => try_push_children b3 m1 prefix edges' (prefixes ++ [child]) (pending ++ [child])
                end
            end
        end
    end.

  (** The do-while loop of DawgIterator::advance (dawg_iterator.cpp:43-54); there
      is no prefix and no node if an exception was thrown.  The front of
      [_pending] has been popped by then. *)
  Fixpoint try_diter_loop (rounds : nat) (b : budget) (m : mem pcell) (prefixes pending : list ptr)
    : res (budget * mem pcell * list ptr * list ptr * option (ptr * node)) :=
    match rounds with
    | O => OOF
    | S rounds' =>
        match pending with
        | [] => UB
        | prefix :: rest =>
            do x <- mread m prefix;
            match spend b with
            | None => Ok (b, m, prefixes, rest, None)    (* std::function *)
            | Some b1 =>
                do n <- read h (pc_node x);
                let '(b2, m1, prefixes1, pending1, done) := try_push_children b1 m prefix (nedges n) prefixes rest in
                if negb done then Ok (b2, m1, prefixes1, pending1, None)
                else
                  match nfin n, pending1 with
                  | false, _ :: _ => try_diter_loop rounds' b2 m1 prefixes1 pending1
                  | _, _ => Ok (b2, m1, prefixes1, pending1, Some (prefix, n))
                  end
            end
        end
    end.

  (** DawgIterator::advance (dawg_iterator.cpp:37-60). *)
  Definition try_diter_advance (b : budget) (m : mem pcell) (it : diter) : res (budget * mem pcell * diter * bool) :=
    match di_pending it with
    | [] => Ok (b, m, it, true)
    | _ :: _ =>
        do (b1, m1, prefixes, pending, r) <- try_diter_loop fuel b m (di_prefixes it) (di_pending it);
        match r with
        | None => Ok (b1, m1, DIter prefixes pending (di_value it) (di_index it), false)
        | Some (prefix, n) =>
            if nfin n then
              match spend b1 with
              | None => Ok (b1, m1, DIter prefixes pending (di_value it) (di_index it), false)    (* str() *)
              | Some b2 =>
                  do v <- pcell_str fuel m1 prefix;
                  Ok (b2, m1, DIter prefixes pending v (di_index it), true)
              end
            else Ok (b1, m1, DIter prefixes pending (di_value it) (di_index it), true)
        end
    end.

  (** Dawg::begin and DawgIterator(DawgNode* root) (dawg.cpp:59-61,
      dawg_iterator.cpp:6-11).  If the constructor throws there is no iterator,
      and its destructor is not run. *)
  Definition try_diter_begin (b : budget) (m : mem pcell) (d : dawg) : res (budget * mem pcell * option diter) :=
    match spend b with
    | None => Ok (b, m, None)    (* new Prefix *)
    | Some b1 =>
        let (prefix, m1) := mnew alloc m (PCell (d_root d) null Ascii.zero) in
        match spend b1 with
        | None => Ok (b1, m1, None)    (* _prefixes.push_back *)
        | Some b2 =>
            match spend b2 with
            | None => Ok (b2, m1, None)    (* _pending.push *)
            | Some b3 =>
                do (b4, m2, it, done) <- try_diter_advance b3 m1 (DIter [prefix] [prefix] [] 0);
                Ok (b4, m2, if (done : bool) then Some it else None)
            end
        end
    end.

  (** DawgIterator::operator++ (dawg_iterator.cpp:23-27): the index is not
      counted up if advance() throws. *)
  Definition try_diter_next (b : budget) (m : mem pcell) (it : diter) : res (budget * mem pcell * diter * bool) :=
    do (b1, m1, it1, done) <- try_diter_advance b m it;
    Ok (b1, m1,
        if (done : bool) then DIter (di_prefixes it1) (di_pending it1) (di_value it1) (wadd (di_index it1) 1) else it1,
        done).
End Throw.

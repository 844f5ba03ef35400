(** * ModelIterator: DawgIterator and its prefixes in memory.

    The same functions as in ModelDawg, with every Prefix allocated and freed the
    way the source does it. *)
From Verif Require Import Base Spec ModelTransducer ModelDawg ModelState.
Local Open Scope N_scope.

(** Prefix (prefix.h:84-92). *)
Record pcell := PCell { pc_node : ptr; pc_parent : ptr; pc_label : char }.

(** DawgIterator (dawg_iterator.h:70-81). *)
Record diter := DIter {
  di_prefixes : list ptr;
  di_pending : list ptr;
  di_value : str;
  di_index : N }.

(** Prefix::str and operator<< (prefix.cpp:34-45). *)
Fixpoint pcell_str (fuel : nat) (m : mem pcell) (p : ptr) : res str :=
  match fuel with
  | O => OOF
  | S fuel' =>
      do x <- mread m p;
      if negb (pc_parent x =? null) then
        do s <- pcell_str fuel' m (pc_parent x);
        Ok (s ++ [pc_label x])
      else Ok []
  end.

Section Iterator.
  Variables (fuel : nat) (alloc : mem pcell -> ptr) (h : heap).

  (** The body of for_each_edge (dawg_iterator.cpp:48-52): a new prefix for every
      edge, entered into [_prefixes] and [_pending]. *)
  Fixpoint push_children (m : mem pcell) (prefix : ptr) (edges : list (char * ptr))
    (prefixes pending : list ptr) : mem pcell * list ptr * list ptr :=
    match edges with
    | [] => (m, prefixes, pending)
    | (label, target) :: edges' =>
        let (child, m1) := mnew alloc m (PCell target prefix label) in
        push_children m1 prefix edges' (prefixes ++ [child]) (pending ++ [child])
    end.

  (** The do-while loop of DawgIterator::advance (dawg_iterator.cpp:43-54). *)
  Fixpoint diter_loop (rounds : nat) (m : mem pcell) (prefixes pending : list ptr)
    : res (mem pcell * list ptr * list ptr * ptr * node) :=
    match rounds with
    | O => OOF
    | S rounds' =>
        match pending with
        | [] => UB
        | prefix :: rest =>
            do x <- mread m prefix;
            do n <- read h (pc_node x);
            let '(m1, prefixes1, pending1) := push_children m prefix (nedges n) prefixes rest in
            match nfin n, pending1 with
            | false, _ :: _ => diter_loop rounds' m1 prefixes1 pending1
            | _, _ => Ok (m1, prefixes1, pending1, prefix, n)
            end
        end
    end.

  (** DawgIterator::advance (dawg_iterator.cpp:37-60). *)
  Definition diter_advance (m : mem pcell) (it : diter) : res (mem pcell * diter) :=
    match di_pending it with
    | [] => Ok (m, it)
    | _ :: _ =>
        do (m1, prefixes, pending, prefix, n) <- diter_loop fuel m (di_prefixes it) (di_pending it);
        if nfin n then
          do v <- pcell_str fuel m1 prefix;
          Ok (m1, DIter prefixes pending v (di_index it))
        else Ok (m1, DIter prefixes pending (di_value it) (di_index it))
    end.

  (** Dawg::begin and DawgIterator(DawgNode* root) (dawg.cpp:59-61,
      dawg_iterator.cpp:6-11). *)
  Definition diter_begin (m : mem pcell) (d : dawg) : res (mem pcell * diter) :=
    let (prefix, m1) := mnew alloc m (PCell (d_root d) null Ascii.zero) in
    diter_advance m1 (DIter [prefix] [prefix] [] 0).

  (** Dawg::end and DawgIterator(std::size_t) (dawg.cpp:63-65,
      dawg_iterator.cpp:13-15). *)
  Definition diter_end (d : dawg) : diter := DIter [] [] [] (d_size d).

  (** DawgIterator::operator++ (dawg_iterator.cpp:23-27). *)
  Definition diter_next (m : mem pcell) (it : diter) : res (mem pcell * diter) :=
    do (m1, it1) <- diter_advance m it;
    Ok (m1, DIter (di_prefixes it1) (di_pending it1) (di_value it1) (wadd (di_index it1) 1)).

  (** DawgIterator::operator== (dawg_iterator.cpp:33-35). *)
  Definition diter_eq (it other : diter) : bool := di_index it =? di_index other.
End Iterator.

(** DawgIterator::~DawgIterator (dawg_iterator.cpp:17-21). *)
Fixpoint delete_prefixes (m : mem pcell) (ps : list ptr) : res (mem pcell) :=
  match ps with
  | [] => Ok m
  | p :: ps' =>
      if p =? null then delete_prefixes m ps'
      else do m1 <- mfree m p; delete_prefixes m1 ps'
  end.
Definition diter_destroy (m : mem pcell) (it : diter) : res (mem pcell) :=
  delete_prefixes m (di_prefixes it).

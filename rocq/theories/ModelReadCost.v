(** * ModelReadCost: what looking up a term and iterating over a dictionary cost.

    The functions of ModelDawg with the nodes they look at. *)
From Verif Require Import Base ModelDawg.

(** Dawg::contains (dawg.cpp:43-49), with the part of the term that has been read
    whenever DawgNode::transition is called. *)
Fixpoint c_contains_loop (h : heap) (p : ptr) (i : N) (read_so_far term : str) : res (ptr * list str) :=
  match term with
  | [] => Ok (p, [])
  | c :: term' =>
      if N.eqb p null then Ok (p, [])
      else
        do n <- read h p;
        if (i =? 2147483647)%N then UB
        else
          do (q, calls) <- c_contains_loop h (transition n c) (i + 1)%N (read_so_far ++ [c]) term';
          Ok (q, read_so_far :: calls)
  end.

Definition c_contains (h : heap) (d : dawg) (term : str) : res (bool * list str) :=
  do (p, calls) <- c_contains_loop h (d_root d) 0%N [] term;
  if N.eqb p null then Ok (false, calls)
  else do n <- read h p; Ok (nfin n, calls).

(** The do-while loop of DawgIterator::advance (dawg_iterator.cpp:43-54), with the
    prefixes taken from the queue. *)
Fixpoint c_advance_loop (fuel : nat) (h : heap) (pending : list prefix)
  : res (list prefix * prefix * node * list str) :=
  match fuel with
  | O => OOF
  | S fuel' =>
      match pending with
      | [] => UB
      | p :: rest =>
          do n <- read h (prefix_node p);
          let rest := rest ++ map (fun e => ChildPrefix (snd e) p (fst e)) (nedges n) in
          match nfin n, rest with
          | false, _ :: _ =>
              do (rest', p', n', taken) <- c_advance_loop fuel' h rest;
              Ok (rest', p', n', prefix_str p :: taken)
          | _, _ => Ok (rest, p, n, [prefix_str p])
          end
      end
  end.

(** DawgIterator::advance (dawg_iterator.cpp:37-60). *)
Definition c_advance (fuel : nat) (h : heap) (it : iter) : res (iter * list str) :=
  match it_pending it with
  | [] => Ok (it, [])
  | _ :: _ =>
      do (rest, p, n, taken) <- c_advance_loop fuel h (it_pending it);
      Ok (Iter rest (if nfin n then prefix_str p else it_value it) (it_index it), taken)
  end.

(** DawgIterator::operator++ (dawg_iterator.cpp:23-27), [k] times. *)
Fixpoint c_increments (k fuel : nat) (h : heap) (it : iter) : res (iter * list str) :=
  match k with
  | O => Ok (it, [])
  | S k' =>
      do (it1, taken) <- c_advance fuel h it;
      do (it2, more) <- c_increments k' fuel h (Iter (it_pending it1) (it_value it1) (wadd (it_index it1) 1));
      Ok (it2, taken ++ more)
  end.

(** Dawg::begin (dawg.cpp:59-61, dawg_iterator.cpp:6-11) and [k] increments. *)
Definition c_iterator (k fuel : nat) (h : heap) (d : dawg) : res (iter * list str) :=
  do (it, taken) <- c_advance fuel h (Iter [RootPrefix (d_root d)] [] 0%N);
  do (it', more) <- c_increments k fuel h it;
  Ok (it', taken ++ more).
